(** C78, C79: how far the filters are from exact arithmetic when they run on IEEE binary64. *)
From Coq Require Import ZArith QArith Qreals Reals Lra Psatz Permutation Uint63 FloatOps FloatAxioms SpecFloat.
From Coq Require PrimFloat.
From Flocq Require Import Core BinarySingleNaN.
From Flocq Require IEEE754.PrimFloat.
From Verif Require Import Py Num NumF Numpy Filters Registry Spec StructProofs RunProofs Reach RMat FloatErr.
Open Scope R_scope.
#[local] Existing Instance Flocq.IEEE754.PrimFloat.Hprec.
#[local] Existing Instance Flocq.IEEE754.PrimFloat.Hmax.
#[local] Notation bin := Flocq.IEEE754.PrimFloat.Prim2B.

(** ** Specification *)
(** s = a*b + r with a single rounding (IEEE fused multiply-add) *)
Definition fused (a b r s : float) : Prop :=
  bin s = Bfma mode_NE (bin a) (bin b) (bin r).

(** r is a possible result of computing the sum of the products a*b of the list in binary64: the products are added in any
    order and any bracketing, with or without fused multiply-add, from accumulators that start at zero (np.dot leaves all of
    this to the BLAS library) *)
Inductive evaluates : list (float * float) -> float -> Prop :=
| ev_zero : evaluates [] PrimFloat.zero
| ev_mul a b : evaluates [(a, b)] (PrimFloat.mul a b)
| ev_add l1 l2 r1 r2 : evaluates l1 r1 -> evaluates l2 r2 -> evaluates (l1 ++ l2) (PrimFloat.add r1 r2)
| ev_fma a b l r s : evaluates l r -> fused a b r s -> evaluates ((a, b) :: l) s
| ev_perm l l' r : Permutation l l' -> evaluates l r -> evaluates l' r.

(** binary64 with any such inner product, any way of summing, and any tanh, exp, power *)
Definition FNumD (solve : list (list float) -> list (list float) -> option (list (list float)))
  (tanh exp : float -> float) (power : float -> float -> float) (sum : list float -> float) (dot : list float -> list float -> float)
  : Num float := {|
    nadd := PrimFloat.add; nsub := PrimFloat.sub; nmul := PrimFloat.mul; ndiv := PrimFloat.div;
    nopp := PrimFloat.opp; nabs := PrimFloat.abs; nsign := fsgn; npown := fpown; npow := power;
    nexp := exp; ntanh := tanh; nsqrt := PrimFloat.sqrt; nlog10 := fun _ => PrimFloat.nan;
    nltb := PrimFloat.ltb; nleb := PrimFloat.leb; neqb := PrimFloat.eqb;
    nofZ := f_of_Z;
    nofQ := fun q => PrimFloat.div (f_of_Z (Qnum q)) (f_of_Z (Zpos (Qden q)));
    ntrunc := f_trunc;
    nsum := sum; ndot := dot; nsolve := solve |}.

(** the bound: n products *)
Definition prod_sum (l : list (float * float)) : R := fold_right (fun p s => val (fst p) * val (snd p) + s) 0 l.
Definition prod_abs (l : list (float * float)) : R := fold_right (fun p s => Rabs (val (fst p) * val (snd p)) + s) 0 l.
Definition dot_slack (n : nat) (a : R) : R := ((1 + uro) ^ n - 1) * a + INR n * (1 + uro) ^ n * eta.

(** ** Evaluation of inner products *)
Lemma prod_abs_nonneg l : 0 <= prod_abs l.
Proof. induction l as [|p l IH]; cbn; [lra|]. pose proof (Rabs_pos (val (fst p) * val (snd p))). unfold prod_abs in IH. lra. Qed.
Lemma prod_sum_app l1 l2 : prod_sum (l1 ++ l2) = prod_sum l1 + prod_sum l2.
Proof.
  induction l1 as [|p l IH]; [change (prod_sum l2 = 0 + prod_sum l2); ring|].
  change (val (fst p) * val (snd p) + prod_sum (l ++ l2) = val (fst p) * val (snd p) + prod_sum l + prod_sum l2). rewrite IH. ring.
Qed.
Lemma prod_abs_app l1 l2 : prod_abs (l1 ++ l2) = prod_abs l1 + prod_abs l2.
Proof.
  induction l1 as [|p l IH]; [change (prod_abs l2 = 0 + prod_abs l2); ring|].
  change (Rabs (val (fst p) * val (snd p)) + prod_abs (l ++ l2) = Rabs (val (fst p) * val (snd p)) + prod_abs l + prod_abs l2). rewrite IH. ring.
Qed.
Lemma prod_sum_perm l l' : Permutation l l' -> prod_sum l = prod_sum l'.
Proof. induction 1; cbn [prod_sum fold_right] in *; unfold prod_sum in *; try lra. Qed.
Lemma prod_abs_perm l l' : Permutation l l' -> prod_abs l = prod_abs l'.
Proof. induction 1; cbn [prod_abs fold_right] in *; unfold prod_abs in *; try lra. Qed.
Lemma prod_sum_le l : Rabs (prod_sum l) <= prod_abs l.
Proof.
  induction l as [|p l IH]; cbn [prod_sum prod_abs fold_right]; [rewrite Rabs_R0; lra|].
  fold (prod_sum l). fold (prod_abs l). eapply Rle_trans; [apply Rabs_triang|]. lra.
Qed.

Lemma fma_err a b r s : fused a b r s -> fin s -> fin a /\ fin b /\ fin r /\
  exists d h, Rabs d <= uro /\ Rabs h <= eta /\ val s = (val a * val b + val r) * (1 + d) + h.
Proof.
  intros E H. unfold fused in E. rewrite !fin_B in *. rewrite E in H.
  assert (Hp : is_finite (bin a) = true /\ is_finite (bin b) = true /\ is_finite (bin r) = true).
  { revert H. generalize (bin a) (bin b) (bin r). clear.
    intros a b r. destruct a as [s|s| |s m e H], b as [s'|s'| |s' m' e' H'], r as [t|t| |t mt et Ht]; cbn; intros E;
      try (split; [reflexivity|split; reflexivity] || discriminate);
      try (destruct (Bool.eqb (xorb s s') t); discriminate). }
  destruct Hp as (Ha & Hb & Hr). split; [exact Ha|]. split; [exact Hb|]. split; [exact Hr|].
  pose proof (Bfma_correct FloatOps.prec FloatOps.emax Flocq.IEEE754.PrimFloat.Hprec Flocq.IEEE754.PrimFloat.Hmax mode_NE _ _ _ Ha Hb Hr) as C.
  cbv zeta in C. destruct (Rlt_bool _ _).
  - destruct C as (C & _). rewrite <- E in C. rewrite !val_B, C. apply rnd_mul.
  - apply overflow_not_fin in C. congruence.
Qed.

Lemma pow_ge1 n : 1 <= (1 + uro) ^ n.
Proof. pose proof uro_pos. apply pow_R1_Rle. lra. Qed.
Lemma pow_mono n m : (n <= m)%nat -> (1 + uro) ^ n <= (1 + uro) ^ m.
Proof. intros H. pose proof uro_pos. apply Rle_pow; [lra|exact H]. Qed.
Lemma dot_slack_nonneg n a : 0 <= a -> 0 <= dot_slack n a.
Proof.
  intros Ha. unfold dot_slack. pose proof (pow_ge1 n). pose proof eta_pos. pose proof (pos_INR n).
  assert (0 <= ((1 + uro) ^ n - 1) * a) by (apply Rmult_le_pos; lra).
  assert (0 <= INR n * (1 + uro) ^ n * eta) by (repeat apply Rmult_le_pos; lra). lra.
Qed.
Lemma dot_slack_mono n m a b : (n <= m)%nat -> 0 <= a <= b -> dot_slack n a <= dot_slack m b.
Proof.
  intros H Hab. unfold dot_slack. pose proof (pow_mono n m H). pose proof (pow_ge1 n). pose proof eta_pos. pose proof (pos_INR n). apply le_INR in H as Hn.
  apply Rplus_le_compat; [apply Rmult_le_compat; lra|]. apply Rmult_le_compat_r; [lra|]. apply Rmult_le_compat; lra.
Qed.
(** one rounding of a sum of two parts with slacks *)
Lemma slack_add n m a b : (0 < n)%nat -> (0 < m)%nat -> 0 <= a -> 0 <= b ->
  (1 + uro) * (dot_slack n a + dot_slack m b) + uro * (a + b) <= dot_slack (n + m) (a + b).
Proof.
  intros Hn Hm Ha Hb. pose proof uro_pos as Hu. pose proof eta_pos as He.
  destruct n as [|n]; [lia|]. destruct m as [|m]; [lia|].
  set (p := (1 + uro) ^ (S n + S m)).
  assert (P1 : (1 + uro) * (1 + uro) ^ S n <= p).
  { change ((1 + uro) ^ S (S n) <= p). apply pow_mono. lia. }
  assert (P2 : (1 + uro) * (1 + uro) ^ S m <= p).
  { change ((1 + uro) ^ S (S m) <= p). apply pow_mono. lia. }
  assert (Q1 : (1 + uro) * (((1 + uro) ^ S n - 1) * a) + uro * a <= (p - 1) * a).
  { replace ((1 + uro) * (((1 + uro) ^ S n - 1) * a) + uro * a) with (((1 + uro) * (1 + uro) ^ S n - 1) * a) by ring.
    apply Rmult_le_compat_r; lra. }
  assert (Q2 : (1 + uro) * (((1 + uro) ^ S m - 1) * b) + uro * b <= (p - 1) * b).
  { replace ((1 + uro) * (((1 + uro) ^ S m - 1) * b) + uro * b) with (((1 + uro) * (1 + uro) ^ S m - 1) * b) by ring.
    apply Rmult_le_compat_r; lra. }
  assert (E1 : (1 + uro) * (INR (S n) * (1 + uro) ^ S n * eta) <= INR (S n) * p * eta).
  { replace ((1 + uro) * (INR (S n) * (1 + uro) ^ S n * eta)) with (INR (S n) * ((1 + uro) * (1 + uro) ^ S n) * eta) by ring.
    apply Rmult_le_compat_r; [lra|]. apply Rmult_le_compat_l; [apply pos_INR|exact P1]. }
  assert (E2 : (1 + uro) * (INR (S m) * (1 + uro) ^ S m * eta) <= INR (S m) * p * eta).
  { replace ((1 + uro) * (INR (S m) * (1 + uro) ^ S m * eta)) with (INR (S m) * ((1 + uro) * (1 + uro) ^ S m) * eta) by ring.
    apply Rmult_le_compat_r; [lra|]. apply Rmult_le_compat_l; [apply pos_INR|exact P2]. }
  unfold dot_slack. fold p. rewrite plus_INR. lra.
Qed.

Lemma round_step z t d b : Rabs d <= uro -> Rabs (z - t) <= b -> Rabs (z * (1 + d) - t) <= (1 + uro) * b + uro * Rabs t.
Proof.
  intros Hd Hz. replace (z * (1 + d) - t) with ((z - t) + d * ((z - t) + t)) by ring.
  eapply Rle_trans; [apply Rabs_triang|]. rewrite (Rabs_mult d).
  pose proof (Rabs_triang (z - t) t) as H. pose proof (Rabs_pos d).
  assert (Rabs d * Rabs (z - t + t) <= uro * (b + Rabs t)).
  { apply Rmult_le_compat; [lra|apply Rabs_pos|exact Hd|lra]. }
  lra.
Qed.

Lemma Rabs_zero z : Rabs z <= 0 -> z = 0.
Proof. intros H. destruct (Req_dec z 0) as [|H0]; [assumption|]. apply Rabs_pos_lt in H0. lra. Qed.
Lemma zero_fin : fin PrimFloat.zero /\ val PrimFloat.zero = 0.
Proof. split; [exact I|reflexivity]. Qed.

Lemma evaluates_err l r : evaluates l r -> fin r ->
  (forall p, In p l -> fin (fst p) /\ fin (snd p)) /\ Rabs (val r - prod_sum l) <= dot_slack (length l) (prod_abs l).
Proof.
  pose proof uro_pos as Hu. pose proof eta_pos as He.
  induction 1 as [|a b|l1 l2 r1 r2 H1 IH1 H2 IH2|a b l r s H IH Hf|l l' r HP H IH]; intros Hfin.
  - split; [intros p []|]. cbn. unfold val. cbn. rewrite Rminus_0_r, Rabs_R0. unfold dot_slack. cbn. lra.
  - destruct (mul_round a b Hfin) as (Ha & Hb & _). destruct (mul_err a b Hfin) as (d & h & Hd & Hh & ->).
    split; [intros p [<-|[]]; auto|]. cbn [prod_sum prod_abs fold_right fst snd length]. rewrite !Rplus_0_r.
    set (z := val a * val b). replace (z * (1 + d) + h - z) with (d * z + h) by ring.
    eapply Rle_trans; [apply Rabs_triang|]. rewrite Rabs_mult. unfold dot_slack. cbn [pow INR].
    assert (Rabs d * Rabs z <= uro * Rabs z) by (apply Rmult_le_compat_r; [apply Rabs_pos|exact Hd]).
    assert (0 <= uro * eta) by (apply Rmult_le_pos; lra). lra.
  - destruct (add_fin r1 r2 Hfin) as (F1 & F2). destruct (IH1 F1) as (I1 & B1). destruct (IH2 F2) as (I2 & B2).
    split; [intros p Hp; apply in_app_or in Hp as [Hp|Hp]; auto|].
    destruct l1 as [|p1 l1].
    { (* nothing is added *)
      assert (Z1 : val r1 = 0).
      { unfold prod_sum, prod_abs, dot_slack in B1. cbn in B1. rewrite Rminus_0_r in B1.
        apply Rabs_zero. lra. }
      cbn [app]. rewrite (add_round r1 r2 Hfin), Z1, Rplus_0_l, !val_B.
      rewrite round_generic; [rewrite <- val_B; exact B2|apply valid_rnd_N|apply generic_format_B2R]. }
    destruct l2 as [|p2 l2].
    { assert (Z1 : val r2 = 0).
      { unfold prod_sum, prod_abs, dot_slack in B2. cbn in B2. rewrite Rminus_0_r in B2.
        apply Rabs_zero. lra. }
      rewrite app_nil_r. rewrite (add_round r1 r2 Hfin), Z1, Rplus_0_r, !val_B.
      rewrite round_generic; [rewrite <- val_B; exact B1|apply valid_rnd_N|apply generic_format_B2R]. }
    destruct (add_err r1 r2 Hfin) as (d & Hd & ->). rewrite app_length, prod_sum_app, prod_abs_app.
    set (l1' := p1 :: l1) in *. set (l2' := p2 :: l2) in *.
    eapply Rle_trans; [apply (round_step _ _ d (dot_slack (length l1') (prod_abs l1') + dot_slack (length l2') (prod_abs l2')) Hd)|].
    { replace (val r1 + val r2 - (prod_sum l1' + prod_sum l2')) with ((val r1 - prod_sum l1') + (val r2 - prod_sum l2')) by ring.
      eapply Rle_trans; [apply Rabs_triang|]. lra. }
    eapply Rle_trans; [|apply slack_add; [unfold l1'; cbn; lia|unfold l2'; cbn; lia|apply prod_abs_nonneg|apply prod_abs_nonneg]].
    apply Rplus_le_compat_l. apply Rmult_le_compat_l; [lra|]. eapply Rle_trans; [apply Rabs_triang|].
    pose proof (prod_sum_le l1'). pose proof (prod_sum_le l2'). lra.
  - destruct (fma_err a b r s Hf Hfin) as (Ha & Hb & Hr & d & h & Hd & Hh & ->). destruct (IH Hr) as (I1 & B1).
    split; [intros p [<-|Hp]; auto|]. cbn [prod_sum prod_abs fold_right fst snd length]. fold (prod_sum l). fold (prod_abs l).
    set (z := val a * val b). pose proof (prod_abs_nonneg l) as Hn. pose proof (Rabs_pos z) as Hz.
    replace ((z + val r) * (1 + d) + h - (z + prod_sum l)) with (((z + val r) * (1 + d) - (z + prod_sum l)) + h) by ring.
    eapply Rle_trans; [apply Rabs_triang|].
    assert (HS : Rabs ((z + val r) * (1 + d) - (z + prod_sum l)) <= (1 + uro) * dot_slack (length l) (prod_abs l) + uro * Rabs (z + prod_sum l)).
    { apply round_step; [exact Hd|]. replace (z + val r - (z + prod_sum l)) with (val r - prod_sum l) by ring. exact B1. }
    assert (Ht : uro * Rabs (z + prod_sum l) <= uro * (Rabs z + prod_abs l)).
    { apply Rmult_le_compat_l; [lra|]. eapply Rle_trans; [apply Rabs_triang|]. pose proof (prod_sum_le l). lra. }
    enough ((1 + uro) * dot_slack (length l) (prod_abs l) + uro * (Rabs z + prod_abs l) + eta <= dot_slack (S (length l)) (Rabs z + prod_abs l)) by lra.
    unfold dot_slack. rewrite S_INR. change ((1 + uro) ^ S (length l)) with ((1 + uro) * (1 + uro) ^ length l).
    set (p := (1 + uro) ^ length l). pose proof (pow_ge1 (length l)) as Hp. fold p in Hp.
    assert (0 <= (p - 1) * Rabs z) by (apply Rmult_le_pos; lra).
    assert (0 <= uro * ((p - 1) * Rabs z)) by (apply Rmult_le_pos; lra).
    assert (eta * 1 <= eta * ((1 + uro) * p)).
    { apply Rmult_le_compat_l; [lra|]. assert (1 * 1 <= (1 + uro) * p) by (apply Rmult_le_compat; lra). lra. }
    nra.
  - destruct (IH Hfin) as (I1 & B1). split.
    + intros p Hp. apply I1. apply (Permutation_in _ (Permutation_sym HP) Hp).
    + rewrite <- (Permutation_length HP), <- (prod_sum_perm _ _ HP), <- (prod_abs_perm _ _ HP). exact B1.
Qed.

(** ** Steps of a run, in any arithmetic *)
Section Gen.
  Context {T : Type} {NT : Num T}.
  Notation obj := (obj T).
  Notation vec := (list T).

  Lemma all_Ok_split (d : vec) x (o : obj) k :
    length d = length x -> (k < length x)%nat ->
    snd (adapt_all d x o) = Ok tt ->
    adapt (nth k d n0) (nth k x []) (state_after k d x o) = (state_after (S k) d x o, Ok tt).
  Proof.
    revert x o k; induction d as [|d0 d IH]; intros [|x0 x] o k Hl Hk HO; simpl in Hl, Hk; try lia.
    apply adapt_all_Ok_cons in HO as (H1 & H2 & _).
    destruct k as [|k].
    - unfold state_after; cbn [firstn adapt_all nth]. destruct d, x; cbn [firstn adapt_all]; unfold bind, ret;
      simpl in H1 |- *; destruct (adapt d0 x0 o) as [o1 [[]|ex]]; simpl in *; congruence.
    - cbn [nth]. specialize (IH x (fst (adapt d0 x0 o)) k ltac:(lia) ltac:(lia) H2).
      unfold state_after in *. rewrite (firstn_cons k d0), (firstn_cons k x0), (firstn_cons (S k) d0), (firstn_cons (S k) x0).
      cbn [adapt_all]. unfold bind.
      destruct (adapt d0 x0 o) as [o1 [[]|ex]]; simpl in H1; [|discriminate]. exact IH.
  Qed.

  Lemma run_steps n (o o' : obj) d x y e w k :
    wf n o -> rowsl n x -> run d x o = (o', Ok (y, e, w)) -> (k < length x)%nat ->
    exists s s', wf n s /\ frame o s /\ (k = 0%nat -> s = o) /\
      s = state_after k d x o /\ s' = state_after (S k) d x o /\
      adapt (nth k d n0) (nth k x []) s = (s', Ok tt) /\
      o_w s = nth k (w ++ [o_w o']) [] /\ o_w s' = nth (S k) (w ++ [o_w o']) [] /\ o_w s = nth k w [] /\
      nth k y n0 = pred_out s (nth k x []) /\
      nth k e n0 = nsub (nth k d n0) (nth k y n0) /\ length (nth k x []) = n.
  Proof.
    intros Hwf Hx E Hk.
    assert (Hl : length d = length x).
    { destruct (Nat.eq_dec (length d) (length x)) as [|Hc]; auto.
      rewrite run_bad_length in E by assumption; discriminate. }
    assert (Hne : x <> []) by (intros ->; simpl in Hk; lia).
    destruct (run_eq n o d x Hwf Hx Hl Hne) as (h & E' & _).
    rewrite E in E'. destruct (snd (adapt_all d x o)) as [[]|] eqn:HO; [|discriminate].
    simpl in E'. injection E' as -> -> -> ->.
    exists (state_after k d x o), (state_after (S k) d x o).
    assert (Hs : wf n (state_after k d x o) /\ frame o (state_after k d x o)).
    { unfold state_after. destruct (adapt_all_ok n (firstn k d) (firstn k x) o Hwf) as (s & r & -> & H1 & _ & H2 & _).
      - apply firstn_rows; auto.
      - split; auto. }
    pose proof (wtrace_length d x o Hl) as Hwl.
    assert (Hrow : forall j, (j <= length x)%nat -> o_w (state_after j d x o) = nth j (wtrace d x o ++ [o_w (fst (adapt_all d x o))]) []).
    { intros j Hj. destruct (Nat.eq_dec j (length x)) as [->|Hne'].
      - rewrite app_nth2 by lia. rewrite Hwl, Nat.sub_diag. simpl.
        unfold state_after; rewrite !firstn_all2 by lia; reflexivity.
      - rewrite app_nth1 by lia. rewrite wtrace_nth by (auto; lia). reflexivity. }
    split; [apply Hs|]. split; [apply Hs|]. split; [intros ->; destruct d, x; reflexivity|]. split; [reflexivity|]. split; [reflexivity|].
    split; [apply all_Ok_split; auto|].
    split; [apply Hrow; lia|]. split; [apply Hrow; lia|]. split; [rewrite (Hrow k) by lia; apply app_nth1; lia|].
    split; [exact (ytrace_nth d x o k Hl Hk HO)|].
    split; [|apply nth_rows; auto].
    assert (Hly : length (ytrace d x o) = length d) by (rewrite ytrace_length; auto).
    revert Hk; rewrite <- Hl. revert Hly; generalize (ytrace d x o) as yy. clear.
    revert k; induction d as [|a d IH]; intros [|k] [|b y] Hly Hk; simpl in *; try lia; auto.
    apply IH; lia.
  Qed.
End Gen.

(** ** C78 *)
Lemma prods n (u v : list float) : length u = n -> length v = n ->
  length (combine u v) = n /\
  prod_sum (combine u v) = sumn n (fun i => val (nth i u PrimFloat.zero) * val (nth i v PrimFloat.zero)) /\
  prod_abs (combine u v) = sumn n (fun i => Rabs (val (nth i u PrimFloat.zero) * val (nth i v PrimFloat.zero))).
Proof.
  revert u v. induction n as [|n IH]; intros [|a u] [|b v] Hu Hv; try discriminate; [repeat split; reflexivity|].
  injection Hu as Hu. injection Hv as Hv. destruct (IH u v Hu Hv) as (H1 & H2 & H3).
  split; [cbn [combine length]; lia|]. rewrite !sumn_S_l. cbn [nth combine].
  split; [rewrite <- H2|rewrite <- H3]; reflexivity.
Qed.

Section C78.
  Variable solve : list (list float) -> list (list float) -> option (list (list float)).
  Variables (tanh exp : float -> float) (power : float -> float -> float) (sum : list float -> float) (dot : list float -> list float -> float).
  Hypothesis dot_ok : forall u v, length u = length v -> evaluates (combine u v) (dot u v).
  #[local] Hint Extern 0 (Num float) => exact (FNumD solve tanh exp power sum dot) : typeclass_instances.
  Notation obj := (obj float).

  Lemma dot_err n u v : length u = n -> length v = n -> fin (dot u v) ->
    (forall i, (i < n)%nat -> fin (nth i u PrimFloat.zero) /\ fin (nth i v PrimFloat.zero)) /\
    Rabs (val (dot u v) - sumn n (fun i => val (nth i u PrimFloat.zero) * val (nth i v PrimFloat.zero))) <=
    dot_slack n (sumn n (fun i => Rabs (val (nth i u PrimFloat.zero) * val (nth i v PrimFloat.zero)))).
  Proof.
    intros Hu Hv HF. destruct (evaluates_err _ _ (dot_ok u v ltac:(congruence)) HF) as (H1 & H2).
    destruct (prods n u v Hu Hv) as (L & S1 & S2). rewrite L, S1, S2 in H2. split; [|exact H2].
    intros i Hi. apply (H1 (nth i u PrimFloat.zero, nth i v PrimFloat.zero)).
    rewrite <- combine_nth by congruence. apply nth_In. rewrite L. exact Hi.
  Qed.

  (** predict: a finite output is the exact inner product up to rounding, and everything it was computed from is finite *)
  Theorem C78_prediction : forall n (o o' : obj) x y, reachable n o -> length x = n -> is_OCNLMS o = false ->
    predict x o = (o', Ok y) -> fin y ->
    (forall i, (i < n)%nat -> fin (nth i (o_w o) PrimFloat.zero) /\ fin (nth i x PrimFloat.zero)) /\
    Rabs (val y - sumn n (fun i => val (nth i (o_w o) PrimFloat.zero) * val (nth i x PrimFloat.zero))) <=
    dot_slack n (sumn n (fun i => Rabs (val (nth i (o_w o) PrimFloat.zero) * val (nth i x PrimFloat.zero)))).
  Proof.
    intros n o o' x y Hr Hx Hoc HP HF. pose proof (reachable_wf _ _ Hr) as Hwf. destruct Hwf as (Hw & _).
    rewrite (predict_plain o x Hoc) in HP. rewrite vdot_ok in HP by congruence. injection HP as _ <-.
    exact (dot_err n (o_w o) x Hw Hx HF).
  Qed.

  (** run: every finite y[k] is the inner product of the recorded weights with the input up to rounding, and e[k] is d[k] - y[k]
      with one rounding *)
  Theorem C78_run : forall n (o o' : obj) d x y e w k, reachable n o -> is_OCNLMS o = false -> rows_of n x ->
    run d x o = (o', Ok (y, e, w)) -> (k < length x)%nat -> fin (nth k y PrimFloat.zero) ->
    let W i := val (nth i (nth k w []) PrimFloat.zero) in
    let X i := val (nth i (nth k x []) PrimFloat.zero) in
    let D := val (nth k d PrimFloat.zero) in let Y := val (nth k y PrimFloat.zero) in
    Rabs (Y - sumn n (fun i => W i * X i)) <= dot_slack n (sumn n (fun i => Rabs (W i * X i))) /\
    (fin (nth k e PrimFloat.zero) ->
      Rabs (val (nth k e PrimFloat.zero) - (D - Y)) <= uro * Rabs (D - Y) /\
      Rabs (val (nth k e PrimFloat.zero) - (D - sumn n (fun i => W i * X i))) <=
        uro * Rabs (D - Y) + dot_slack n (sumn n (fun i => Rabs (W i * X i)))).
  Proof.
    intros n o o' d x y e w k Hr Hoc Hx HR Hk HF W X D Y. pose proof (reachable_wf _ _ Hr) as Hwf.
    destruct (run_steps n o o' d x y e w k Hwf Hx HR Hk) as (s & s' & Hs & Hfr & _ & _ & _ & _ & _ & _ & Hw & Hy & He & Hxl).
    assert (Hoc' : is_OCNLMS s = false).
    { destruct Hfr as (_ & _ & Hkind). unfold is_OCNLMS in *. revert Hoc Hkind. unfold kind_eq. destruct (o_ext o), (o_ext s); intros; try contradiction; auto; discriminate. }
    assert (HB : Rabs (Y - sumn n (fun i => W i * X i)) <= dot_slack n (sumn n (fun i => Rabs (W i * X i)))).
    { change (nth k y n0) with (nth k y PrimFloat.zero) in Hy. unfold Y. unfold W, X. rewrite <- Hw. pose proof Hs as (Hws & _).
      unfold pred_out in Hy. destruct (is_AP s).
      - change (nth k y PrimFloat.zero = dot (nth k x []) (o_w s)) in Hy. rewrite Hy in HF |- *.
        destruct (dot_err n _ _ Hxl Hws HF) as (_ & H).
        rewrite (sumn_ext n (fun i => val (nth i (nth k x []) PrimFloat.zero) * _) _ (fun i _ => Rmult_comm _ _)) in H.
        rewrite (sumn_ext n (fun i => Rabs _) (fun i => Rabs (val (nth i (o_w s) PrimFloat.zero) * val (nth i (nth k x []) PrimFloat.zero)))) in H by (intros; f_equal; apply Rmult_comm).
        exact H.
      - rewrite (predict_plain s _ Hoc') in Hy. rewrite vdot_ok in Hy by congruence. cbn [snd] in Hy.
        change (nth k y PrimFloat.zero = dot (o_w s) (nth k x [])) in Hy. rewrite Hy in HF |- *.
        apply (dot_err n _ _ Hws Hxl HF). }
    split; [exact HB|]. intros HE.
    change (nth k e PrimFloat.zero = PrimFloat.sub (nth k d PrimFloat.zero) (nth k y PrimFloat.zero)) in He.
    rewrite He in HE |- *. destruct (sub_err _ _ HE) as (dl & Hdl & ->). fold D Y.
    assert (H1 : Rabs ((D - Y) * (1 + dl) - (D - Y)) <= uro * Rabs (D - Y)).
    { replace ((D - Y) * (1 + dl) - (D - Y)) with (dl * (D - Y)) by ring. rewrite Rabs_mult. apply Rmult_le_compat_r; [apply Rabs_pos|exact Hdl]. }
    split; [exact H1|].
    replace ((D - Y) * (1 + dl) - (D - sumn n (fun i => W i * X i))) with (((D - Y) * (1 + dl) - (D - Y)) - (Y - sumn n (fun i => W i * X i))) by ring.
    eapply Rle_trans; [apply Rabs_triang|]. rewrite Rabs_Ropp. lra.
  Qed.
End C78.

(** the left-to-right product sum of NumF.v is one of the allowed evaluations *)
Lemma fold_evaluates l : forall a r, evaluates l r -> forall us vs, length us = length vs -> a = r ->
  evaluates (l ++ combine us vs) (fold_left PrimFloat.add (map2 PrimFloat.mul us vs) a).
Proof.
  intros a r H us. revert l a r H. induction us as [|u us IH]; intros l a r H [|v vs] Hl ->; try discriminate.
  - cbn. rewrite app_nil_r. exact H.
  - cbn [combine map2 fold_left]. replace (l ++ (u, v) :: combine us vs) with ((l ++ [(u, v)]) ++ combine us vs) by (rewrite <- app_assoc; reflexivity).
    eapply IH; [|cbn in Hl; lia|reflexivity]. apply ev_add; [exact H|apply ev_mul].
Qed.
Lemma plain_dot_ok : forall u v : list float, length u = length v ->
  evaluates (combine u v) (fold_left PrimFloat.add (map2 PrimFloat.mul u v) PrimFloat.zero).
Proof. intros u v H. exact (fold_evaluates [] _ _ ev_zero u v H eq_refl). Qed.

(** a concrete case: a binary64 NLMS filter with mu = eps = 0.1 whose second output is not the exact inner product *)
Definition plain_dot (u v : list float) : float := fold_left PrimFloat.add (map2 PrimFloat.mul u v) PrimFloat.zero.
Definition plain_sum (l : list float) : float := fold_left PrimFloat.add l PrimFloat.zero.
Definition tenth : float := PrimFloat.div PrimFloat.one (f_of_Z 10).
Definition no_solve (A B : list (list float)) : option (list (list float)) := None.
Definition round_num : Num float := FNumD no_solve (fun a => a) (fun a => a) (fun a _ => a) plain_sum plain_dot.
Definition round_kw : kwargs float :=
  mkKw (Some 2%Z) (Some tenth) (Some (WStr "zeros")) (Some tenth) None None None None None None None false.
Definition round_filter : obj float := mkObj [PrimFloat.zero; PrimFloat.zero] 2 tenth None (XNLMS tenth).
Definition round_d : list float := [PrimFloat.one; tenth; PrimFloat.two].
Definition round_x : list (list float) := [[PrimFloat.one; tenth]; [tenth; PrimFloat.two]; [PrimFloat.one; PrimFloat.one]].
Lemma round_reachable : @reachable _ round_num 2 round_filter.
Proof.
  apply (@reach_new _ round_num 2 (fun k => repeat PrimFloat.zero k) KNLMS round_kw); [intros k; apply repeat_length|split; discriminate|reflexivity|].
  vm_compute. reflexivity.
Qed.
Definition finb (a : float) : bool := match Prim2SF a with S754_finite _ _ _ | S754_zero _ => true | _ => false end.
Lemma finb_ok a : finb a = true -> fin a.
Proof. unfold finb, fin. destruct (Prim2SF a); intros H; (exact I || congruence). Qed.
Lemma finb_all l : forallb finb l = true -> Forall fin l.
Proof. intros H. apply Forall_forall. intros a Ha. apply finb_ok. rewrite forallb_forall in H. apply H, Ha. Qed.
(** the value as a rational number, to compute with *)
Definition valQ (a : float) : Q :=
  match Prim2SF a with
  | S754_finite s m e => ((if s then -1 # 1 else 1) * inject_Z (Zpos m) * Qpower 2 e)%Q
  | _ => 0%Q
  end.
Lemma powQ e : Q2R (Qpower 2 e) = powerRZ 2 e.
Proof.
  rewrite RMicromega.Q2RpowerRZ by (left; discriminate). f_equal. unfold Q2R. cbn. lra.
Qed.
Lemma val_Q a : val a = Q2R (valQ a).
Proof.
  unfold val, valQ. destruct (Prim2SF a) as [s|s| |s m e]; try (symmetry; apply RMicromega.Q2R_0).
  rewrite !Q2R_mult, powQ. f_equal. unfold inject_Z, Q2R at 2. cbn [Qnum Qden]. rewrite Rinv_1, Rmult_1_r. f_equal.
  destruct s; unfold Q2R; cbn; lra.
Qed.
Example C78_hypotheses :
  (forall u v, length u = length v -> evaluates (combine u v) (plain_dot u v)) /\
  @reachable _ round_num 2 round_filter /\ is_OCNLMS round_filter = false /\ rows_of 2 round_x /\
  exists o' y e w, @run _ round_num round_d round_x round_filter = (o', Ok (y, e, w)) /\ Forall fin y /\ Forall fin e /\
    Forall (Forall fin) (w ++ [o_w o']) /\ PrimFloat.ltb PrimFloat.zero (nth 1 y PrimFloat.zero) = true /\
    val (nth 1 y PrimFloat.zero) <> sumn 2 (fun i => val (nth i (nth 1 w []) PrimFloat.zero) * val (nth i (nth 1 round_x []) PrimFloat.zero)).
Proof.
  split; [exact plain_dot_ok|]. split; [exact round_reachable|]. split; [reflexivity|]. split; [repeat constructor|].
  destruct (@run _ round_num round_d round_x round_filter) as [o' r] eqn:E.
  assert (E' := E). vm_compute in E'. injection E' as E1 E2. subst r. do 4 eexists. split; [reflexivity|].
  split; [apply finb_all; vm_compute; reflexivity|]. split; [apply finb_all; vm_compute; reflexivity|].
  rewrite <- E1. split; [repeat (constructor; [apply finb_all; vm_compute; reflexivity|]); constructor|].
  split; [vm_compute; reflexivity|].
  cbn [sumn]. rewrite !val_Q, <- !Q2R_mult, Rplus_0_l, <- Q2R_plus. intros H. apply eqR_Qeq in H. vm_compute in H. discriminate.
Qed.
