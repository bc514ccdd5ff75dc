(** C104: filters on integer arrays. *)
From Coq Require Import Reals Lra Psatz QArith Qround.
From Verif Require Import Py Num NumQ Numpy Filters Registry Spec StructProofs RunProofs Reach KeepProofs RVec RFilter Steps RMat PropsRegistry PropsStability PropsAlgebra
  PropsRun PropsRecursion IntModel.
Open Scope nat_scope.

(** ** Specification *)
(** the classes in which no two input arrays are multiplied with each other *)
Definition input_products {T} (o : obj T) : bool :=
  match o_ext o with XNLMS _ | XNLMF _ | XNSSLMS _ | XGNGD _ _ _ _ | XRLS _ _ | XBenveniste _ _ _ _ _ | XMathews _ _ _ _ => true | _ => false end.
(** entries that the integer type t can hold, integers of magnitude at most A *)
Definition small (t : itype) (A : Z) (v : list R) : Prop :=
  Forall (fun r => exists z, r = IZR z /\ (if signed t then Z.abs z <= A else 0 <= z <= A)%Z) v.
(** the sum of n products of such numbers does not leave the integer type *)
Definition room (t : itype) (n : nat) (A : Z) : Prop :=
  (0 < bits t)%Z /\ (0 <= A)%Z /\ (Z.of_nat n * (A * A) < 2 ^ (if signed t then bits t - 1 else bits t))%Z.

(** ** Agreement of the integer model with the float64 model *)
Section Agree.
  Context {T : Type} {NT : Num T}.
  Notation vec := (list T).
  Notation mat := (list (list T)).
  Notation obj := (obj T).
  Variable wr : T -> T.

  Definition keeps {A} (P : obj -> Prop) (m : M obj A) : Prop := forall o, P o -> P (fst (m o)).
  Section P.
    Variables (P : obj -> Prop) (Q : vec -> Prop).
    Hypothesis HL : forall o e x, P o -> Q x -> learning_rule_int wr e x o = learning_rule e x o.
    Hypothesis Hpredict : forall x, keeps P (predict x).
    Hypothesis Hhist : forall k, keeps P (hist_set k).
    Hypothesis Hbody : forall k d x, Q x -> keeps P (run_body k d x).
    Hypothesis Hn : forall n, keeps P (modify (set_n n)).
    Hypothesis Hh : forall h, keeps P (modify (set_hist h)).

    Lemma agree_adapt d x o : P o -> Q x -> adapt_int wr d x o = adapt d x o.
    Proof.
      intros HP HQ. unfold adapt_int, adapt, bind, get. destruct (is_AP o); [reflexivity|]. unfold adapt_base, bind.
      pose proof (Hpredict x o HP) as H1. destruct (predict x o) as [o1 [y|]]; [|reflexivity]. cbn [fst] in H1. rewrite HL by auto. reflexivity.
    Qed.
    Lemma agree_body k d x o : P o -> Q x -> run_body_int wr k d x o = run_body k d x o.
    Proof.
      intros HP HQ. unfold run_body_int, run_body, bind, get. destruct (is_AP o); [reflexivity|]. unfold run_body_base, bind.
      pose proof (Hhist k o HP) as H0. destruct (hist_set k o) as [o0 [u|]]; [|reflexivity]. cbn [fst] in H0.
      pose proof (Hpredict x o0 H0) as H1. destruct (predict x o0) as [o1 [y|]]; [|reflexivity]. cbn [fst] in H1. rewrite HL by auto. reflexivity.
    Qed.
    Lemma agree_loop : forall ds xs k o, P o -> Forall Q xs -> run_loop_int wr k ds xs o = run_loop k ds xs o.
    Proof.
      induction ds as [|d ds IH]; intros [|x xs] k o HP HQ; try reflexivity. cbn [run_loop_int run_loop]. unfold bind at 1 3.
      rewrite agree_body by (auto; exact (Forall_inv HQ)). pose proof (Hbody k d x (Forall_inv HQ) o HP) as H1.
      destruct (run_body k d x o) as [o1 [[y e]|]]; [|reflexivity]. cbn [fst] in H1. unfold bind. rewrite IH by (auto; exact (Forall_inv_tail HQ)). reflexivity.
    Qed.
    Lemma agree_run d x o : P o -> Forall Q x -> run_int wr d x o = run d x o.
    Proof.
      intros HP HQ. unfold run_int, run. destruct (negb _); [reflexivity|]. destruct x as [|x0 x]; [reflexivity|].
      unfold bind at 1 4. unfold modify at 1 3. destruct (negb _); [reflexivity|]. unfold bind at 1 3. unfold modify. unfold bind at 1 3.
      rewrite agree_loop; [reflexivity| |exact HQ]. apply (Hh _ (set_n _ o)). apply (Hn _ o HP).
    Qed.
  End P.

  (** *** C104: float64 arrays *)
  (** The integer model is the program of Filters.v with the reduction to the integer type put in: without it, it is that program *)
  Lemma map_map_id (A : mat) : map (map (fun r => r)) A = A.
  Proof. rewrite <- (map_id A) at 2. apply map_ext. intros r. apply map_id. Qed.
End Agree.

Section Any.
  Context {T : Type} {NT : Num T}.
  Notation vec := (list T).
  Notation mat := (list (list T)).
  Notation obj := (obj T).

  Theorem C104_float_arrays : forall (d : vec) (x : mat) (dk : T) (xk : vec) (o : obj),
    run_int (fun r => r) d x o = run d x o /\ adapt_int (fun r => r) dk xk o = adapt dk xk o.
  Proof.
    assert (HL : forall (o : obj) e x, True -> True -> learning_rule_int (fun r => r) e x o = learning_rule e x o).
    { intros o e x _ _. unfold learning_rule_int, learning_rule. unfold bind at 1, get at 1. unfold bind at 3, get at 1.
      destruct (o_ext o) eqn:E; unfold learning_rule, bind, get; rewrite ?E, ?map_map_id; reflexivity. }
    intros d x dk xk o. split.
    - apply (agree_run (fun r => r) (fun _ => True) (fun _ => True)); unfold keeps; auto. apply Forall_forall. intros; exact I.
    - apply (agree_adapt (fun r => r) (fun _ => True) (fun _ => True)); unfold keeps; auto.
  Qed.

  (** *** C104: the classes that do not care *)
  Theorem C104_unaffected : forall (wr : T -> T) (d : vec) (x : mat) (dk : T) (xk : vec) (o : obj), input_products o = false ->
    run_int wr d x o = run d x o /\ adapt_int wr dk xk o = adapt dk xk o.
  Proof.
    intros wr d x dk xk o Ho.
    set (P := fun s : obj => kind_eq (o_ext o) (o_ext s) = true).
    assert (HP : P o) by apply kind_eq_refl.
    assert (HL : forall (s : obj) e x, P s -> True -> learning_rule_int wr e x s = learning_rule e x s).
    { intros s e r Hs _. unfold P in Hs. unfold input_products in Ho. unfold learning_rule_int, bind, get.
      destruct (o_ext o); try discriminate Ho; destruct (o_ext s) eqn:E; try discriminate Hs; try reflexivity; cbn in Hs; discriminate Hs. }
    split.
    - apply (agree_run wr P (fun _ => True)); auto.
      + intros r s Hs. apply kp_predict. exact Hs.
      + intros k s Hs. apply kp_hist_set. exact Hs.
      + intros k a r _ s Hs. apply kp_run_body. exact Hs.
      + intros n s Hs. exact Hs.
      + intros h s Hs. exact Hs.
      + apply Forall_forall. intros; exact I.
    - apply (agree_adapt wr P (fun _ => True)); auto. intros r s Hs. apply kp_predict. exact Hs.
  Qed.
End Any.

(** ** The integer types *)
Open Scope R_scope.
Lemma Int_part_IZR z : Int_part (IZR z) = z.
Proof.
  destruct (base_Int_part (IZR z)) as (H1 & H2). apply Z.le_antisymm; [apply le_IZR; exact H1|].
  assert (H : IZR z < IZR (Int_part (IZR z) + 1)) by (rewrite plus_IZR; lra). apply lt_IZR in H. lia.
Qed.
Lemma wrapR_Z t z : wrapR t (IZR z) = IZR (wrapZ t z).
Proof. unfold wrapR. rewrite Int_part_IZR. reflexivity. Qed.
Lemma pow_split b : (0 < b)%Z -> (2 ^ b = 2 * 2 ^ (b - 1))%Z.
Proof. intros H. rewrite <- Z.pow_succ_r by lia. f_equal. lia. Qed.
Lemma wrap_fits t z : (0 < bits t)%Z -> (if signed t then - 2 ^ (bits t - 1) <= z < 2 ^ (bits t - 1) else 0 <= z < 2 ^ bits t)%Z -> wrapZ t z = z.
Proof.
  intros Hb H. unfold wrapZ. destruct (signed t); [|apply Z.mod_small; exact H].
  rewrite Z.mod_small; [lia|]. rewrite (pow_split (bits t) Hb). lia.
Qed.
(** the first overflow of a signed type *)
Lemma wrap_over t z : (0 < bits t)%Z -> signed t = true -> (2 ^ (bits t - 1) <= z < 2 ^ bits t)%Z -> (wrapZ t z = z - 2 ^ bits t)%Z.
Proof.
  intros Hb Hs H. unfold wrapZ. rewrite Hs. pose proof (pow_split (bits t) Hb) as E.
  replace (z + 2 ^ (bits t - 1))%Z with (z - 2 ^ (bits t - 1) + 1 * 2 ^ bits t)%Z by lia.
  rewrite Z.mod_add by lia. rewrite Z.mod_small by lia. lia.
Qed.

Lemma small_dot t A : forall u v, small t A u -> small t A v -> length u = length v -> (0 <= A)%Z ->
  exists z, Rdot u v = IZR z /\ (Z.abs z <= Z.of_nat (length u) * (A * A))%Z /\ (signed t = false -> 0 <= z)%Z.
Proof.
  induction u as [|a u IH]; intros [|b v] Hu Hv Hl HA; try discriminate.
  - exists 0%Z. split; [reflexivity|]. split; [cbn; lia|lia].
  - destruct (Forall_inv Hu) as (za & Ea & Ha). destruct (Forall_inv Hv) as (zb & Eb & Hb).
    destruct (IH v (Forall_inv_tail Hu) (Forall_inv_tail Hv) ltac:(cbn in Hl; lia) HA) as (z & Ez & H1 & H2).
    exists (za * zb + z)%Z. split; [cbn [Rdot]; rewrite Ea, Eb, Ez, plus_IZR, mult_IZR; reflexivity|].
    assert (HB : (Z.abs (za * zb) <= A * A)%Z).
    { rewrite Z.abs_mul. apply Z.mul_le_mono_nonneg; try apply Z.abs_nonneg; destruct (signed t); lia. }
    split; [cbn [length]; lia|]. intros Hs. specialize (H2 Hs). rewrite Hs in *. assert (0 <= za * zb)%Z by (apply Z.mul_nonneg_nonneg; lia). lia.
Qed.
Lemma wrap_dot t n A u v : room t n A -> small t A u -> small t A v -> length u = n -> length v = n -> wrapR t (Rdot u v) = Rdot u v.
Proof.
  intros (Hb & HA & HR) Hu Hv Lu Lv. destruct (small_dot t A u v Hu Hv ltac:(congruence) HA) as (z & -> & H1 & H2). rewrite Lu in H1.
  rewrite wrapR_Z, wrap_fits; auto. destruct (signed t); [lia|]. specialize (H2 eq_refl). lia.
Qed.
Lemma wrap_prod t n A u a b : room t n A -> small t A u -> length u = n -> In a u -> In b u -> wrapR t (a * b) = a * b.
Proof.
  intros (Hb & HA & HR) Hu Lu Ia Ib. unfold small in Hu. rewrite Forall_forall in Hu. destruct (Hu a Ia) as (za & -> & Ha). destruct (Hu b Ib) as (zb & -> & Hbb).
  rewrite <- mult_IZR, wrapR_Z, wrap_fits; auto.
  assert (Hn : (1 <= Z.of_nat n)%Z) by (destruct u; [destruct Ia|cbn [length] in Lu; lia]).
  assert (HB : (Z.abs (za * zb) <= A * A)%Z).
  { rewrite Z.abs_mul. apply Z.mul_le_mono_nonneg; try apply Z.abs_nonneg; destruct (signed t); lia. }
  assert (HM : (A * A <= Z.of_nat n * (A * A))%Z) by nia.
  destruct (signed t); [lia|]. assert (0 <= za * zb)%Z by (apply Z.mul_nonneg_nonneg; lia). lia.
Qed.

Section RealRuns.
  Variable solve : list rvec -> list rvec -> option (list rvec).
  #[local] Hint Extern 0 (Num R) => exact (RNum solve) : typeclass_instances.
  Notation obj := (obj R).

  Lemma wrap_outer t n A (u : rvec) : room t n A -> small t A u -> length u = n -> map (map (wrapR t)) (outer u u) = outer u u.
  Proof.
    intros HR Hu Lu. unfold outer. rewrite map_map. apply map_ext_in. intros a Ia. rewrite map_map. apply map_ext_in. intros b Ib.
    apply (wrap_prod t n A u a b); auto.
  Qed.

  (** the remembered inputs are small too *)
  Definition fitting (t : itype) (n : nat) (A : Z) (o : obj) : Prop :=
    match o_ext o with
    | XGNGD _ _ _ lx | XBenveniste _ _ lx _ _ | XMathews _ _ lx _ => small t A lx /\ length lx = n
    | _ => True
    end.

  Lemma fit_rule t n A : room t n A -> forall (o : obj) e x, fitting t n A o -> small t A x /\ length x = n ->
    learning_rule_int (wrapR t) e x o = learning_rule e x o.
  Proof.
    intros HR o e x H3 (Hx & Lx). unfold learning_rule_int. unfold bind at 1, get at 1. unfold fitting in H3.
    destruct (o_ext o) eqn:E; try reflexivity; unfold learning_rule, bind, get; rewrite E; unfold lift; change (@ndot R (RNum solve)) with Rdot.
    1-3: rewrite (wrap_dot t n A x x) by auto; reflexivity.
    - destruct H3 as (Hl & Ll). rewrite vdot_ok by congruence. change (@ndot R (RNum solve)) with Rdot.
      rewrite !(wrap_dot t n A) by auto. reflexivity.
    - rewrite (wrap_outer t n A) by auto. reflexivity.
    - destruct H3 as (Hl & Ll). rewrite (wrap_outer t n A) by auto. reflexivity.
    - destruct H3 as (Hl & Ll). rewrite vdot_ok by congruence. change (@ndot R (RNum solve)) with Rdot.
      rewrite !(wrap_dot t n A) by auto. reflexivity.
  Qed.

  (** everything keeps them small *)
  Definition fitx (t : itype) (n : nat) (A : Z) (e : ext R) : Prop :=
    match e with XGNGD _ _ _ lx | XBenveniste _ _ lx _ _ | XMathews _ _ lx _ => small t A lx /\ length lx = n | _ => True end.
  Lemma fitting_ext t n A (o o' : obj) : o_ext o' = o_ext o -> fitting t n A o -> fitting t n A o'.
  Proof. unfold fitting. intros ->. auto. Qed.
  Lemma fitting_kind t n A (o o' : obj) : input_products o = false -> kind_eq (o_ext o) (o_ext o') = true -> fitting t n A o'.
  Proof. unfold input_products, fitting. destruct (o_ext o); try discriminate; destruct (o_ext o'); try discriminate; auto. Qed.
  Lemma fit_predict t n A x : keeps (fitting t n A) (predict x).
  Proof.
    intros o Ho. destruct (is_OCNLMS o) eqn:E.
    - apply (fitting_kind t n A o); [unfold is_OCNLMS in E; unfold input_products; destruct (o_ext o); try discriminate; reflexivity|].
      apply kp_predict, kind_eq_refl.
    - rewrite predict_plain by exact E. exact Ho.
  Qed.
  Lemma fit_hist t n A k : keeps (fitting t n A) (hist_set k).
  Proof.
    intros o Ho. apply (fitting_ext t n A o); [|exact Ho]. unfold hist_set, bind, get, ret, raise, modify.
    destruct (o_hist o); [|reflexivity]. destruct (_ =? _)%nat; [reflexivity|]. destruct (o_w o) as [|a [|]]; reflexivity.
  Qed.
  Lemma fit_iadd t n A dw : keeps (fitting t n A) (iadd_w dw).
  Proof.
    intros o Ho. apply (fitting_ext t n A o); [|exact Ho]. unfold iadd_w, bind, get, ret, raise, modify.
    destruct (_ =? _)%nat; [reflexivity|]. destruct dw as [|a [|]]; reflexivity.
  Qed.
  Lemma fit_learning t n A e x : small t A x /\ length x = n -> keeps (fitting t n A) (learning_rule e x).
  Proof.
    intros Hx o Ho. destruct (input_products o) eqn:E.
    - unfold input_products in E. unfold learning_rule, bind, get. unfold fitting in Ho.
      destruct (o_ext o) eqn:Ee; try discriminate E; unfold lift, ret, raise, modify; cbn [fst].
      all: repeat match goal with |- context [match ?v with Ok _ => _ | Err _ => _ end] => destruct v; cbn [fst] end.
      all: repeat match goal with |- context [if ?v then _ else _] => destruct v; cbn [fst] end.
      all: unfold fitting; cbn [o_ext set_ext]; rewrite ?Ee; auto.
    - apply (fitting_kind t n A o); [exact E|]. apply kp_learning_rule, kind_eq_refl.
  Qed.
  Lemma keeps_bind {A B} (P : obj -> Prop) (m : M obj A) (f : A -> M obj B) : keeps P m -> (forall a, keeps P (f a)) -> keeps P (bind m f).
  Proof. intros Hm Hf o Ho. unfold bind. specialize (Hm o Ho). destruct (m o) as [o' [a|]]; [apply Hf; exact Hm|exact Hm]. Qed.
  Lemma fit_body t n A k d x : small t A x /\ length x = n -> keeps (fitting t n A) (run_body k d x).
  Proof.
    intros Hx o Ho. unfold run_body, bind, get. destruct (is_AP o) eqn:E.
    - apply (fitting_kind t n A o); [unfold is_AP in E; unfold input_products; destruct (o_ext o); try discriminate; reflexivity|].
      pose proof (kp_run_body (o_ext o) k d x o (kind_eq_refl _)) as H. unfold run_body, bind, get in H. rewrite E in H. exact H.
    - revert o Ho E. intros o Ho _. revert o Ho. change (keeps (fitting t n A) (run_body_base k d x)). unfold run_body_base.
      apply keeps_bind; [apply fit_hist|intros u]. apply keeps_bind; [apply fit_predict|intros y]. cbv zeta.
      apply keeps_bind; [apply fit_learning; exact Hx|intros dw]. apply keeps_bind; [apply fit_iadd|intros u2]. intros o Ho. exact Ho.
  Qed.
  Lemma fit_loop t n A : forall ds xs k, Forall (fun r => small t A r /\ length r = n) xs -> keeps (fitting t n A) (run_loop k ds xs).
  Proof.
    induction ds as [|d ds IH]; intros [|x xs] k Hx; try (intros o Ho; exact Ho). cbn [run_loop].
    apply keeps_bind; [apply fit_body; exact (Forall_inv Hx)|]. intros (y & e). apply keeps_bind; [apply IH; exact (Forall_inv_tail Hx)|]. intros (ys & es) o Ho. exact Ho.
  Qed.
  Lemma fit_run t n A d x : Forall (fun r => small t A r /\ length r = n) x -> keeps (fitting t n A) (run d x).
  Proof.
    intros Hx. unfold run. destruct (negb _); [intros o Ho; exact Ho|]. destruct x as [|x0 x]; [intros o Ho; exact Ho|].
    apply keeps_bind; [intros o Ho; exact Ho|intros u]. destruct (negb _); [intros o Ho; exact Ho|].
    apply keeps_bind; [intros o Ho; exact Ho|intros u2]. apply keeps_bind; [apply fit_loop; exact Hx|]. intros (y & e) o Ho.
    unfold bind, get. destruct (o_hist o); exact Ho.
  Qed.
  Lemma fit_agree t n A d x (o : obj) : room t n A -> fitting t n A o -> Forall (fun r => small t A r /\ length r = n) x ->
    run_int (wrapR t) d x o = run d x o.
  Proof.
    intros HR Ho Hx. apply (agree_run (wrapR t) (fitting t n A) (fun r => small t A r /\ length r = n)); auto.
    - intros s e r Hs Hr. apply (fit_rule t n A HR s e r Hs Hr).
    - apply fit_predict.
    - apply fit_hist.
    - intros k a r Hr. apply fit_body; exact Hr.
    - intros k s Hs. exact Hs.
    - intros h s Hs. exact Hs.
  Qed.

  (** *** C104: numbers that are small enough *)
  (** a session: run after run on the same filter *)
  Definition session (f : rvec -> list rvec -> M obj (rvec * rvec * list rvec)) (bs : list (rvec * list rvec)) (o : obj) : obj :=
    fold_left (fun s b => fst (f (fst b) (snd b) s)) bs o.
  Theorem C104_no_overflow : forall t n A rng c (kw : kwargs R) (o : obj) (bs : list (rvec * list rvec)) (d : rvec) (x : list rvec),
    room t n A -> kw_n kw = Some (Z.of_nat n) -> new_filter rng c kw = Ok o ->
    (forall b, In b bs -> rows_of n (snd b) /\ Forall (small t A) (snd b)) -> rows_of n x -> Forall (small t A) x ->
    run_int (wrapR t) d x (session (run_int (wrapR t)) bs o) = run d x (session run bs o).
  Proof.
    intros t n A rng c kw o bs d x HR Hn Ho Hbs Hx1 Hx2.
    assert (HQ : forall v, rows_of n v -> Forall (small t A) v -> Forall (fun r => small t A r /\ length r = n) v).
    { intros v H1 H2. unfold rows_of in H1. rewrite Forall_forall in H1, H2 |- *. intros r Hr. split; [apply H2; exact Hr|apply H1; exact Hr]. }
    assert (HF : fitting t n A o).
    { destruct (PropsRecursion.new_filter_rate solve rng c kw n o Hn Ho) as (_ & _ & He).
      assert (Hz : small t A (zeros n) /\ length (zeros (T := R) n) = n).
      { split; [|apply repeat_length]. unfold small, zeros. apply Forall_forall. intros r Hr. apply repeat_spec in Hr. subst r. exists 0%Z. split; [reflexivity|].
        destruct HR as (_ & HA & _). destruct (signed t); cbn; lia. }
      unfold fitting. destruct c; cbn [init_ext] in He; try (destruct (neqb _ _) in He; [discriminate He|]); injection He as <-; auto. }
    clear Hn Ho. revert o HF Hbs. induction bs as [|b bs IH]; intros o HF Hbs.
    - unfold session; cbn [fold_left]. apply (fit_agree t n A); [exact HR|exact HF|apply HQ; assumption].
    - destruct (Hbs b ltac:(left; reflexivity)) as (Hb1 & Hb2). unfold session. cbn [fold_left].
      rewrite (fit_agree t n A (fst b) (snd b) o HR HF (HQ _ Hb1 Hb2)). apply IH; [apply fit_run; [apply HQ; assumption|exact HF]|]. intros b' Hb'. apply Hbs. right. exact Hb'.
  Qed.

  (** ** The weights in a run on integer arrays *)
  Section Trace.
    Variables (wr : R -> R) (n : nat) (mu0 : R) (I : ext R -> Prop) (stp : ext R -> R -> rvec -> ext R * rvec).
    Hypothesis Hstep : forall (o : obj) e x, I (o_ext o) -> o_mu o = mu0 -> length x = n ->
      is_AP o = false /\ is_OCNLMS o = false /\
      learning_rule_int wr e x o = (set_ext (fst (stp (o_ext o) e x)) o, Ok (snd (stp (o_ext o) e x))) /\
      length (snd (stp (o_ext o) e x)) = n /\ I (fst (stp (o_ext o) e x)).

    Lemma trace_loop : forall (ds : rvec) (xs : list rvec) (o : obj) pre rest,
      I (o_ext o) -> o_mu o = mu0 -> length (o_w o) = n -> o_n o = n -> o_hist o = Some (pre ++ rest) -> length rest = length xs ->
      length ds = length xs -> rows_of n xs ->
      exists o' ys es ws (X : nat -> ext R), run_loop_int wr (length pre) ds xs o = (o', Ok (ys, es)) /\ o_hist o' = Some (pre ++ ws) /\
        length ws = length xs /\ X 0%nat = o_ext o /\ wrow ws (o_w o') 0 = o_w o /\
        forall k, (k < length xs)%nat ->
          I (X k) /\ length (wrow ws (o_w o') k) = n /\ nth k ys 0 = Rdot (wrow ws (o_w o') k) (nth k xs []) /\ nth k es 0 = nth k ds 0 - nth k ys 0 /\
          wrow ws (o_w o') (S k) = vadd (wrow ws (o_w o') k) (snd (stp (X k) (nth k es 0) (nth k xs []))) /\
          X (S k) = fst (stp (X k) (nth k es 0) (nth k xs [])).
    Proof.
      induction ds as [|d ds IH]; intros [|x xs] o pre rest HI Hmu Hw Hn Hh Hr Hl Hx; try discriminate.
      - exists o, [], [], [], (fun _ => o_ext o). destruct rest; [|discriminate]. split; [reflexivity|]. split; [exact Hh|]. split; [reflexivity|].
        split; [reflexivity|]. split; [reflexivity|]. intros k Hk. cbn in Hk. lia.
      - destruct rest as [|r0 rest]; [discriminate|]. pose proof (Forall_inv Hx) as Lx. cbv beta in Lx. cbn [run_loop_int]. unfold bind at 1, run_body_int, bind at 1, get at 1.
        destruct (Hstep o 0 x HI Hmu Lx) as (Hap & _). rewrite Hap.
        unfold bind at 1, hist_set, bind at 1, get at 1. rewrite Hh, Hw, Hn, Nat.eqb_refl. unfold bind at 1, ret at 1, modify at 1.
        rewrite set_nth_app. set (o1 := set_hist (pre ++ o_w o :: rest) o).
        set (e := nsub d (ndot (o_w o) x)).
        destruct (Hstep o1 e x HI Hmu Lx) as (_ & Hoc & HL & Ldw & HI'). change (o_ext o1) with (o_ext o) in *.
        unfold bind at 1. rewrite predict_plain by exact Hoc. rewrite vdot_ok by (cbn; congruence). change (o_w o1) with (o_w o). fold e.
        unfold bind at 1. rewrite HL. unfold bind at 1. set (dw := snd _) in *. set (x1 := fst _) in *.
        rewrite (iadd_w_ok n) by (try assumption; exact Hw). unfold ret at 1. set (o2 := set_w _ _).
        destruct (IH xs o2 (pre ++ [o_w o]) rest) as (o' & ys & es & ws & X & E & Eh & Lws & X0 & W0 & HK); try assumption.
        + cbn [o2 o_w set_w]. rewrite map2_length_eq with (n := n); auto.
        + cbn. rewrite <- app_assoc. reflexivity.
        + cbn in Hr; lia.
        + cbn in Hl; lia.
        + exact (Forall_inv_tail Hx).
        + rewrite app_length in E. cbn [length] in E. rewrite Nat.add_1_r in E. unfold bind. rewrite E.
          exists o', (ndot (o_w o) x :: ys), (e :: es), (o_w o :: ws), (fun k => match k with O => o_ext o | S k => X k end).
          split; [reflexivity|]. split; [rewrite Eh, <- app_assoc; reflexivity|]. split; [cbn; congruence|]. split; [reflexivity|]. split; [reflexivity|].
          intros [|k] Hk.
          * split; [exact HI|]. split; [exact Hw|]. split; [reflexivity|]. split; [reflexivity|]. split; [|exact X0].
            change (wrow ws (o_w o') 0 = vadd (o_w o) dw). rewrite W0. reflexivity.
          * cbn in Hk. exact (HK k ltac:(lia)).
    Qed.
    Lemma trace_run (d : rvec) (x : list rvec) (o : obj) : I (o_ext o) -> o_mu o = mu0 -> length (o_w o) = n -> rows_of n x -> length d = length x -> x <> [] ->
      exists o' y e w (X : nat -> ext R), run_int wr d x o = (o', Ok (y, e, w)) /\ length w = length x /\ X 0%nat = o_ext o /\ wrow w (o_w o') 0 = o_w o /\
        forall k, (k < length x)%nat ->
          I (X k) /\ length (wrow w (o_w o') k) = n /\ nth k y 0 = Rdot (wrow w (o_w o') k) (nth k x []) /\ nth k e 0 = nth k d 0 - nth k y 0 /\
          wrow w (o_w o') (S k) = vadd (wrow w (o_w o') k) (snd (stp (X k) (nth k e 0) (nth k x []))) /\
          X (S k) = fst (stp (X k) (nth k e 0) (nth k x [])).
    Proof.
      intros HI Hmu Hw Hx Hl Hne. unfold run_int. rewrite Hl, Nat.eqb_refl. cbn [negb]. destruct x as [|x0 x]; [congruence|].
      pose proof (Forall_inv Hx) as Lx. cbv beta in Lx. unfold bind at 1, modify at 1. rewrite Lx.
      assert (Hrect : rect n (x0 :: x) = true) by (apply rect_Forall; exact Hx). rewrite Hrect. cbn [negb]. unfold bind at 1, modify at 1.
      destruct (trace_loop d (x0 :: x) (set_hist (zeros2 (length (x0 :: x)) n) (set_n n o)) [] (zeros2 (length (x0 :: x)) n)) as (o' & y & e & w & X & E & Eh & Lw & X0 & W0 & HK);
        try assumption; try reflexivity.
      { unfold zeros2. apply repeat_length. }
      cbn [length] in E. unfold bind at 1. cbn [length]. rewrite E. unfold bind, get. rewrite Eh. cbn [app].
      exists o', y, e, w, X. split; [reflexivity|]. auto.
    Qed.
  End Trace.

  (** the change of the weights, mu/(eps + wr(x.x)) instead of mu/(eps + x.x) *)
  Definition normalised (wr : R -> R) (c : ext R) (mu e : R) (x : rvec) : option rvec :=
    match c with
    | XNLMS eps => Some (vsc (mu / (eps + wr (normsq x)) * e) x)
    | XNLMF eps => Some (vsc (mu / (eps + wr (normsq x)) * e ^ 3) x)
    | XNSSLMS eps => Some (map (fun a => mu / (eps + wr (normsq x)) * Rsgn a * Rsgn e) x)
    | _ => None
    end.
  (** *** C104: NLMS, NLMF and NSSLMS on integer arrays *)
  Theorem C104_normalised_run : forall (wr : R -> R) n (o : obj) d x, reachable n o -> (forall e v, normalised wr (o_ext o) (o_mu o) e v <> None) ->
    rows_of n x -> length d = length x -> x <> [] ->
    exists o' y e w, run_int wr d x o = (o', Ok (y, e, w)) /\ length w = length x /\ wrow w (o_w o') 0 = o_w o /\
      forall k, (k < length x)%nat ->
        length (wrow w (o_w o') k) = n /\ nth k y 0 = Rdot (wrow w (o_w o') k) (nth k x []) /\ nth k e 0 = nth k d 0 - nth k y 0 /\
        exists dw, normalised wr (o_ext o) (o_mu o) (nth k e 0) (nth k x []) = Some dw /\ wrow w (o_w o') (S k) = vadd (wrow w (o_w o') k) dw.
  Proof.
    intros wr n o d x Hr Hc Hx Hl Hne. apply reachable_wf in Hr. destruct Hr as (Hw & _ & _).
    set (stp := fun (c : ext R) e v => (c, match normalised wr c (o_mu o) e v with Some dw => dw | None => [] end)).
    destruct (trace_run wr n (o_mu o) (fun c => c = o_ext o) stp) with (d := d) (x := x) (o := o) as (o' & y & e & w & X & E & Lw & X0 & W0 & HK); auto.
    { intros s e v Hs Hmu Lv. unfold stp. cbn [fst snd]. rewrite Hs.
      assert (Hset : set_ext (o_ext o) s = s) by (rewrite <- Hs; destruct s; reflexivity). rewrite Hset.
      specialize (Hc e v). unfold is_AP, is_OCNLMS. rewrite Hs. unfold learning_rule_int, bind, get. rewrite Hs, Hmu. clear Hs Hset. unfold normalised in *.
      destruct (o_ext o); try (exfalso; apply Hc; reflexivity); (split; [reflexivity|]); (split; [reflexivity|]);
        (split; [|split; [unfold vsc; rewrite map_length; exact Lv|reflexivity]]); unfold ret; f_equal; f_equal; unfold normsq, vsc; apply map_ext; intros a;
        cbn [RNum ndot nadd ndiv nmul nsign npown]; try reflexivity; try ring.
      all: change (@ndot R (RNum solve) v v) with (Rdot v v); cbn; ring. }
    exists o', y, e, w. split; [exact E|]. split; [exact Lw|]. split; [exact W0|]. intros k Hk. destruct (HK k Hk) as (Xk & Lk & Yk & Ek & Wk & _).
    split; [exact Lk|]. split; [exact Yk|]. split; [exact Ek|]. unfold stp in Wk. cbn [snd] in Wk. rewrite Xk in Wk.
    destruct (normalised wr (o_ext o) (o_mu o) (nth k e 0) (nth k x [])) as [dw|] eqn:En; [|exfalso; exact (Hc _ _ En)].
    exists dw. split; [reflexivity|exact Wk].
  Qed.

  (** *** C104: the same sample again and again, NLMS *)
  Theorem C104_NLMS_repeated : forall t n (o o' : obj) eps (q : Z) d x N y e w, (0 < bits t)%Z -> reachable n o -> o_ext o = XNLMS eps -> length x = n ->
    normsq x = IZR q -> run_int (wrapR t) (repeat d N) (repeat x N) o = (o', Ok (y, e, w)) ->
    let e0 := d - Rdot (o_w o) x in
    (forall k, (k < N)%nat -> nth k e 0 = (1 - o_mu o * IZR q / (eps + IZR (wrapZ t q))) ^ k * e0) /\
    (signed t = true -> (2 ^ (bits t - 1) <= q)%Z -> 0 <= eps -> IZR q + eps < IZR (2 ^ bits t) -> 0 < o_mu o ->
       forall k, (k < N)%nat -> (1 + o_mu o) ^ k * Rabs e0 <= Rabs (nth k e 0)) /\
    (signed t = false -> (q mod 2 ^ bits t = 0)%Z -> forall k, (k < N)%nat -> nth k e 0 = (1 - o_mu o * IZR q / eps) ^ k * e0).
  Proof.
    intros t n o o' eps q d x N y e w Hb Hr He Lx Hq HR e0.
    destruct N as [|N].
    { repeat split; intros; lia. }
    destruct (C104_normalised_run (wrapR t) n o (repeat d (S N)) (repeat x (S N)) Hr) as (o1 & y1 & e1 & w1 & E & _ & W0 & HK).
    { intros a v. rewrite He. discriminate. }
    { apply Forall_forall. intros v Hv. apply repeat_spec in Hv. subst v. exact Lx. }
    { rewrite !repeat_length. reflexivity. }
    { discriminate. }
    rewrite HR in E. injection E as <- <- <- <-. rewrite repeat_length in HK.
    assert (HA : forall k, (k < S N)%nat -> nth k e 0 = (1 - o_mu o * IZR q / (eps + IZR (wrapZ t q))) ^ k * e0).
    { set (f := 1 - _). induction k as [|k IH]; intros Hk.
      - destruct (HK 0%nat ltac:(lia)) as (_ & Hy & Hee & _). rewrite Hee, Hy, W0. cbn [nth repeat pow]. unfold e0. ring.
      - destruct (HK k ltac:(lia)) as (Lk & Hy & Hee & dw & Hdw & Hw). destruct (HK (S k) Hk) as (_ & Hy2 & Hee2 & _).
        assert (Hx : forall i, (i < S N)%nat -> nth i (repeat x (S N)) [] = x /\ nth i (repeat d (S N)) 0 = d).
        { intros i Hi. split; apply (repeat_spec (S N)); apply nth_In; rewrite repeat_length; exact Hi. }
        destruct (Hx k ltac:(lia)) as (Xk & Dk). destruct (Hx (S k) Hk) as (Xk2 & Dk2). rewrite Xk in Hy, Hdw. rewrite Dk in Hee. rewrite Hee2, Hy2, Hw, Xk2, Dk2. rewrite He in Hdw. unfold normalised in Hdw. injection Hdw as <-.
        rewrite Rdot_vadd_l; [|rewrite Lk; unfold vsc; rewrite map_length; symmetry; exact Lx|unfold vsc; apply map_length]. rewrite Rdot_vsc_l, Hq, wrapR_Z. fold (normsq x). rewrite Hq.
        cbn [pow]. rewrite (Rmult_assoc f), <- IH by lia.
        replace (d - (Rdot (wrow w (o_w o') k) x + o_mu o / (eps + IZR (wrapZ t q)) * nth k e 0 * IZR q))
          with ((d - Rdot (wrow w (o_w o') k) x) - o_mu o / (eps + IZR (wrapZ t q)) * nth k e 0 * IZR q) by ring.
        replace (d - Rdot (wrow w (o_w o') k) x) with (nth k e 0) by (rewrite Hee, Hy; reflexivity). unfold f, Rdiv. ring. }
    split; [exact HA|]. split.
    - intros Hs H1 He0 H2 Hmu k Hk. rewrite (HA k Hk), Rabs_mult. apply Rmult_le_compat_r; [apply Rabs_pos|].
      assert (H3 : (q < 2 ^ bits t)%Z) by (apply lt_IZR; lra). rewrite (wrap_over t q) by (auto; lia). rewrite minus_IZR.
      set (B := IZR (2 ^ bits t)) in *. assert (HB : B <= 2 * IZR q) by (unfold B; rewrite (pow_split _ Hb), mult_IZR; apply IZR_le in H1; lra).
      set (Q := IZR q) in *. rewrite <- RPow_abs. apply pow_incr. split; [lra|].
      replace (1 - o_mu o * Q / (eps + (Q - B))) with (1 + o_mu o * (Q / (B - Q - eps))) by (field; lra).
      assert (H4 : 1 <= Q / (B - Q - eps)) by (apply (Rmult_le_reg_r (B - Q - eps)); [lra|]; unfold Rdiv; rewrite Rmult_assoc, Rinv_l by lra; lra).
      assert (H5 : o_mu o * 1 <= o_mu o * (Q / (B - Q - eps))) by (apply Rmult_le_compat_l; lra).
      rewrite Rabs_pos_eq; lra.
    - intros Hs H1 k Hk. rewrite (HA k Hk). unfold wrapZ. rewrite Hs, H1, Rplus_0_r. reflexivity.
  Qed.

  (** *** C104: RLS *)
  Lemma rls_rule_one (wr : R -> R) (o : obj) eps r a e : o_ext o = XRLS eps [[r]] -> o_mu o <> 0 ->
    let r' := (r - r * wr (a * a) * r / (o_mu o + a * r * a)) / o_mu o in
    learning_rule_int wr e [a] o = (set_ext (XRLS eps [[r']]) o, Ok [r' * a * e]).
  Proof.
    intros He Hm r'. unfold learning_rule_int, bind, get. rewrite He. cbn [length Nat.eqb rect forallb andb].
    unfold neqb. cbn [RNum]. unfold Reqb. change (@n0 R (RNum solve)) with 0. destruct (Req_EM_T (o_mu o) 0) as [|_]; [contradiction|].
    unfold modify, ret. cbn.
    assert (Hr : 1 / o_mu o * (r - ((r * wr (a * a) + 0) * r + 0) / (o_mu o + ((a * r + 0) * a + 0))) = r').
    { unfold r', Rdiv. rewrite !Rplus_0_r. ring. }
    rewrite !Hr. rewrite Rplus_0_r. reflexivity.
  Qed.
  Lemma rls_one_exists (wr : R -> R) (o : obj) eps r (d : rvec) (x : list rvec) : length (o_w o) = 1%nat -> o_ext o = XRLS eps [[r]] -> o_mu o <> 0 ->
    rows_of 1 x -> length d = length x -> x <> [] -> exists o' y e w, run_int wr d x o = (o', Ok (y, e, w)).
  Proof.
    intros Hw He Hm Hx Hl Hne. set (mu := o_mu o) in *. set (nxt := fun rr a => (rr - rr * wr (a * a) * rr / (mu + a * rr * a)) / mu).
    set (stp := fun (c : ext R) (f : R) (v : rvec) => match c, v with XRLS ep [[rr]], [a] => (XRLS ep [[nxt rr a]], [nxt rr a * a * f]) | _, _ => (c, []) end).
    destruct (trace_run wr 1 mu (fun c => exists rr, c = XRLS eps [[rr]]) stp) with (d := d) (x := x) (o := o)
      as (o1 & y1 & e1 & w1 & X & E & _); auto.
    { intros s f v (rr & Hrr) Hms Lv. unfold is_AP, is_OCNLMS. rewrite Hrr. split; [reflexivity|]. split; [reflexivity|].
      destruct v as [|a [|]]; try discriminate Lv. rewrite (rls_rule_one wr s eps rr a f Hrr) by congruence. unfold stp, nxt. rewrite Hms. cbn [fst snd].
      split; [reflexivity|]. split; [reflexivity|]. eexists. reflexivity. }
    { exists r. exact He. }
    exists o1, y1, e1, w1. exact E.
  Qed.
  Theorem C104_RLS_doubles : forall t (o o' : obj) eps r (z : Z) d N y e w, (0 < bits t)%Z -> signed t = true -> reachable 1 o -> o_ext o = XRLS eps [[r]] ->
    0 < o_mu o <= 1 -> 0 < r -> 3 <= IZR (z * z) * r -> (2 ^ (bits t - 1) <= z * z < 2 ^ bits t)%Z ->
    run_int (wrapR t) (repeat d N) (repeat [IZR z] N) o = (o', Ok (y, e, w)) ->
    forall k, (k < N)%nat -> 2 ^ k * Rabs (d - Rdot (o_w o) [IZR z]) <= Rabs (nth k e 0).
  Proof.
    intros t o o' eps r z d N y e w Hb Hs Hr He Hmu Hr0 H3 Hz HR. destruct N as [|N]; [intros; lia|].
    set (mu := o_mu o) in *. set (nxt := fun rr a => (rr - rr * wrapR t (a * a) * rr / (mu + a * rr * a)) / mu).
    set (stp := fun (c : ext R) (f : R) (v : rvec) => match c, v with XRLS ep [[rr]], [a] => (XRLS ep [[nxt rr a]], [nxt rr a * a * f]) | _, _ => (c, []) end).
    apply reachable_wf in Hr. destruct Hr as (Hw & _ & _).
    destruct (trace_run (wrapR t) 1 mu (fun c => exists rr, c = XRLS eps [[rr]]) stp) with (d := repeat d (S N)) (x := repeat [IZR z] (S N)) (o := o)
      as (o1 & y1 & e1 & w1 & X & E & Lw & X0 & W0 & HK); auto.
    { intros s f v (rr & Hrr) Hm Lv. unfold is_AP, is_OCNLMS. rewrite Hrr. split; [reflexivity|]. split; [reflexivity|].
      destruct v as [|a [|]]; try discriminate Lv. rewrite (rls_rule_one (wrapR t) s eps rr a f Hrr) by lra. unfold stp, nxt. rewrite Hm. cbn [fst snd].
      split; [reflexivity|]. split; [reflexivity|]. eexists. reflexivity. }
    { exists r. exact He. }
    { apply Forall_forall. intros v Hv. apply repeat_spec in Hv. subst v. reflexivity. }
    { rewrite !repeat_length. reflexivity. }
    { discriminate. }
    rewrite HR in E. injection E as <- <- <- <-. rewrite repeat_length in HK.
    assert (Hx : forall i, (i < S N)%nat -> nth i (repeat [IZR z] (S N)) [] = [IZR z] /\ nth i (repeat d (S N)) 0 = d).
    { intros i Hi. split; apply (repeat_spec (S N)); apply nth_In; rewrite repeat_length; exact Hi. }
    set (q := IZR (z * z)) in *. assert (Hq : 0 < q) by nra.
    assert (Hgrow : forall rr, r <= rr -> rr <= nxt rr (IZR z)).
    { intros rr Hrr. unfold nxt. rewrite <- mult_IZR, wrapR_Z, (wrap_over t (z * z)) by (auto; lia).
      replace (IZR z * rr * IZR z) with (q * rr) by (unfold q; rewrite mult_IZR; ring).
      set (v := IZR (z * z - 2 ^ bits t)). assert (Hv : v < 0) by (apply IZR_lt; lia).
      assert (P1 : 0 < q * rr) by (apply Rmult_lt_0_compat; lra).
      assert (P2 : 0 < mu + q * rr) by lra.
      assert (P3 : 0 <= rr * (- v) * rr / (mu + q * rr)) by (apply Rle_mult_inv_pos; [repeat apply Rmult_le_pos; lra|exact P2]).
      replace ((rr - rr * v * rr / (mu + q * rr)) / mu) with ((rr + rr * (- v) * rr / (mu + q * rr)) / mu) by (field; lra).
      apply (Rmult_le_reg_r mu); [lra|]. unfold Rdiv at 1. rewrite Rmult_assoc, Rinv_l, Rmult_1_r by lra.
      assert (rr * mu <= rr * 1) by (apply Rmult_le_compat_l; lra). lra. }
    assert (HA : forall k, (k < S N)%nat -> (exists rr, X k = XRLS eps [[rr]] /\ r <= rr) /\ 2 ^ k * Rabs (d - Rdot (o_w o) [IZR z]) <= Rabs (nth k e 0)).
    { induction k as [|k IH]; intros Hk.
      - destruct (HK 0%nat ltac:(lia)) as (_ & _ & Hy & Hee & _). split; [exists r; split; [rewrite X0; exact He|lra]|].
        rewrite Hee, Hy, W0. cbn [nth repeat pow]. rewrite Rmult_1_l. apply Rle_refl.
      - destruct (IH ltac:(lia)) as ((rr & Xk & Hrr) & Ik). clear IH. destruct (HK k ltac:(lia)) as (_ & Lk & Hy & Hee & Wk & XS). destruct (HK (S k) Hk) as (_ & _ & Hy2 & Hee2 & _).
        destruct (Hx k ltac:(lia)) as (Rk & Dk). destruct (Hx (S k) Hk) as (Rk2 & Dk2).
        rewrite Rk, Xk in Wk, XS. rewrite Rk in Hy. rewrite Dk in Hee. unfold stp in Wk, XS. cbn [fst snd] in Wk, XS. specialize (Hgrow rr Hrr).
        set (r1 := nxt rr (IZR z)) in *. split; [exists r1; split; [exact XS|lra]|].
        assert (H2 : nth (S k) e 0 = (1 - q * r1) * nth k e 0).
        { rewrite Hee2, Hy2, Rk2, Dk2, Wk. rewrite Rdot_vadd_l; [|rewrite Lk; reflexivity|reflexivity].
          replace (Rdot [r1 * IZR z * nth k e 0] [IZR z]) with (q * r1 * nth k e 0) by (cbn [Rdot]; unfold q; rewrite mult_IZR; ring).
          rewrite Hee, Hy at 1. rewrite Hee, Hy. ring. }
        rewrite H2, Rabs_mult. cbn [pow].
        assert (H4 : q * r <= q * r1) by (apply Rmult_le_compat_l; lra).
        assert (H5 : 2 <= Rabs (1 - q * r1)) by (rewrite Rabs_left; lra).
        apply Rle_trans with (2 * Rabs (nth k e 0)); [rewrite Rmult_assoc; apply Rmult_le_compat_l; lra|].
        apply Rmult_le_compat_r; [apply Rabs_pos|exact H5]. }
    intros k Hk. apply HA; exact Hk.
  Qed.
End RealRuns.

Open Scope nat_scope.
(** *** C104: the classes that are affected *)
(* int16 arrays, rational weights *)
Definition int16 : itype := mkI 16 true.
Definition uint8 : itype := mkI 8 false.
Definition wrapQ (t : itype) (q : Q) : Q := inject_Z (wrapZ t (Qfloor q)).
(** four samples x = 200, d = 1, fed to a new filter with one weight 0 *)
Definition ones4 : list Q := [1; 1; 1; 1]%Q.
Definition loud4 : list (list Q) := [[200]; [200]; [200]; [200]]%Q.
Definition errors (r : obj Q * result (list Q * list Q * list (list Q))) : list Q := match snd r with Ok (_, e, _) => e | Err _ => [] end.
Theorem C104_affected : forall c, In c [KNLMS; KNLMF; KNSSLMS; KGNGD; KRLS; KBenveniste; KMathews] ->
  exists o : obj Q, mk c (1 # 10) [0%Q] None None = Ok o /\ input_products o = true /\
    length (errors (run_int (wrapQ int16) ones4 loud4 o)) = 4 /\ length (errors (run ones4 loud4 o)) = 4 /\
    exists k, k < 4 /\ ~ (nth k (errors (run_int (wrapQ int16) ones4 loud4 o)) 0 == nth k (errors (run ones4 loud4 o)) 0)%Q.
Proof.
  intros c Hc. cbn [In] in Hc.
  repeat destruct Hc as [<-|Hc]; try contradiction; (eexists; split; [reflexivity|]); (split; [reflexivity|]); (split; [vm_compute; reflexivity|]); (split; [vm_compute; reflexivity|]);
    exists 3; (split; [lia|]); vm_compute; discriminate.
Qed.

Section Example104.
  Variable solve : list rvec -> list rvec -> option (list rvec).
  #[local] Hint Extern 0 (Num R) => exact (RNum solve) : typeclass_instances.
  Notation obj := (obj R).
  Open Scope R_scope.
  Definition kwi (mu : R) : kwargs R := mkKw (Some 1%Z) (Some mu) (Some (WVec [0])) (Some 1) None None None None None None None false.
  Example C104_hypotheses :
    (exists o : obj, new_filter rngR KNLMS (kwi (1 / 2)) = Ok o /\ kw_n (kwi (1 / 2)) = Some (Z.of_nat 1) /\ room int16 1 100 /\
       rows_of 1 [[100]; [-7]] /\ Forall (small int16 100) [[100]; [-7]]) /\
    (exists (o o1 o2 : obj) y e w y' e' w', reachable 1 o /\ o_ext o = XNLMS 1 /\ o_mu o = 1 / 2 /\
       normsq [200] = IZR 40000 /\ (2 ^ (bits int16 - 1) <= 40000)%Z /\ IZR 40000 + 1 < IZR (2 ^ bits int16) /\
       run_int (wrapR int16) (repeat 1 20) (repeat [200] 20) o = (o1, Ok (y, e, w)) /\
       normsq [16] = IZR 256 /\ (256 mod 2 ^ bits uint8 = 0)%Z /\ run_int (wrapR uint8) (repeat 1 20) (repeat [16] 20) o = (o2, Ok (y', e', w')) /\
       (forall v f, normalised (wrapR int16) (o_ext o) (o_mu o) f v <> None)) /\
    (exists (o o1 : obj) y e w, reachable 1 o /\ o_ext o = XRLS 1 [[1]] /\ o_mu o = 1 / 2 /\ 3 <= IZR (200 * 200) * 1 /\
       (2 ^ (bits int16 - 1) <= 200 * 200 < 2 ^ bits int16)%Z /\ run_int (wrapR int16) (repeat 1 20) (repeat [IZR 200] 20) o = (o1, Ok (y, e, w))) /\
    (exists o : obj, new_filter rngR KLMS (mkKw (Some 1%Z) (Some 1) (Some (WVec [0])) None None None None None None None None false) = Ok o /\ input_products o = false).
  Proof.
    assert (RN : forall c kw (o : obj), kw_n kw = Some 1%Z -> kw_mem kw = None -> kw_order kw = None -> new_filter rngR c kw = Ok o -> reachable 1 o).
    { intros c kw o Hn Hm Hp Ho. apply (reach_new 1 rngR c kw); [apply rngR_ok|split; [rewrite Hm|rewrite Hp]; intros ? H; discriminate H|exact Hn|exact Ho]. }
    split; [|split; [|split]].
    - eexists. split; [reflexivity|]. split; [reflexivity|]. split; [unfold room; cbn; lia|]. split; [repeat constructor|].
      repeat constructor; [exists 100%Z|exists (-7)%Z]; (split; [reflexivity|cbn; lia]).
    - assert (Ho : exists o : obj, new_filter rngR KNLMS (kwi (1 / 2)) = Ok o /\ o_ext o = XNLMS 1 /\ o_mu o = 1 / 2) by (eexists; split; [reflexivity|split; reflexivity]).
      destruct Ho as (o & Ho & He & Hm). pose proof (RN _ (kwi (1 / 2)) o eq_refl eq_refl eq_refl Ho) as Hr.
      assert (HR : forall t a, exists o' y e w, run_int (wrapR t) (repeat 1 20) (repeat [a] 20) o = (o', Ok (y, e, w))).
      { intros t a. destruct (C104_normalised_run solve (wrapR t) 1 o (repeat 1 20) (repeat [a] 20) Hr) as (o' & y & e & w & E & _).
        - intros f v. rewrite He. discriminate.
        - apply Forall_forall. intros v Hv. apply repeat_spec in Hv. subst v. reflexivity.
        - reflexivity.
        - discriminate.
        - exists o', y, e, w. exact E. }
      destruct (HR int16 200) as (o1 & y & e & w & E1). destruct (HR uint8 16) as (o2 & y' & e' & w' & E2).
      exists o, o1, o2, y, e, w, y', e', w'. split; [exact Hr|]. split; [exact He|]. split; [exact Hm|]. split; [unfold normsq; cbn [Rdot]; lra|].
      split; [cbn; lia|]. split; [cbn; lra|]. split; [exact E1|]. split; [unfold normsq; cbn [Rdot]; lra|]. split; [reflexivity|]. split; [exact E2|].
      intros v f. rewrite He. discriminate.
    - assert (Ho : exists o : obj, new_filter rngR KRLS (kwi (1 / 2)) = Ok o /\ o_ext o = XRLS 1 [[1]] /\ o_mu o = 1 / 2).
      { destruct (new_filter rngR KRLS (kwi (1 / 2))) as [o|] eqn:Eo; revert Eo; unfold new_filter; cbn; rewrite Reqb_1_0; [|discriminate].
        intros [= <-]. eexists. split; [reflexivity|]. split; [cbn; f_equal; f_equal; f_equal; field|reflexivity]. }
      destruct Ho as (o & Ho & He & Hm). pose proof (RN _ (kwi (1 / 2)) o eq_refl eq_refl eq_refl Ho) as Hr.
      assert (HR : exists o' y e w, run_int (wrapR int16) (repeat 1 20) (repeat [IZR 200] 20) o = (o', Ok (y, e, w))).
      { apply (rls_one_exists solve (wrapR int16) o 1 1); [apply (reachable_wf 1 o Hr)|exact He|rewrite Hm; lra| |reflexivity|discriminate].
        apply Forall_forall. intros v Hv. apply repeat_spec in Hv. subst v. reflexivity. }
      destruct HR as (o1 & y & e & w & E). exists o, o1, y, e, w. split; [exact Hr|]. split; [exact He|]. split; [exact Hm|]. split; [change (200 * 200)%Z with 40000%Z; lra|]. split; [cbn; lia|exact E].
    - eexists. split; reflexivity.
  Qed.
End Example104.
