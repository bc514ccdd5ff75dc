(** C74, any arithmetic: a filter run on mirrored data gives mirrored results whenever the arithmetic treats positive and
    negative numbers alike.  PropsSignF.v shows that binary64 does, up to the sign of zero. *)
From Coq Require Import QArith.
From Verif Require Import Py Num Numpy Filters Registry Spec StructProofs RunProofs Reach Steps PropsWarm PropsReset.
Open Scope nat_scope.

(** ** Specification *)
Section Spec.
  Context {T : Type} {NT : Num T}.
  (** [like false a b]: b is to be read as a; [like true a b]: b is to be read as -a (e.g. up to the sign of zero) *)
  Record sign_blind (like : bool -> T -> T -> Prop) : Prop := {
    sb_refl : forall a, like false a a; sb_zero : forall s, like s n0 n0; sb_opp : forall a, like true a (nopp a);
    sb_add : forall s a a' b b', like s a a' -> like s b b' -> like s (nadd a b) (nadd a' b');
    sb_sub : forall s a a' b b', like s a a' -> like s b b' -> like s (nsub a b) (nsub a' b');
    sb_mul : forall s t a a' b b', like s a a' -> like t b b' -> like (xorb s t) (nmul a b) (nmul a' b');
    sb_sign : forall s a a', like s a a' -> like s (nsign a) (nsign a');
    sb_cube : forall s a a', like s a a' -> like s (npown a 3) (npown a' 3);
    sb_tanh : forall s a a', like s a a' -> like s (ntanh a) (ntanh a');
    sb_abs : forall s a a', like s a a' -> nabs a' = nabs a;
    sb_dot : forall s t u u' v v', length u = length v -> Forall2 (like s) u u' -> Forall2 (like t) v v' -> like (xorb s t) (ndot u v) (ndot u' v');
    sb_dotsq : forall u, ndot (map nopp u) (map nopp u) = ndot u u }.
  (** the inputs, mirrored or not *)
  Definition flip_row (s : bool) (x : list T) : list T := if s then map nopp x else x.
  Definition flip1 (s : bool) (d : T) : T := if s then nopp d else d.
  (** the same call with inputs mirrored by sx and targets mirrored by sd *)
  Definition mirror_call (sx sd : bool) (p : @op T) : @op T :=
    match p with
    | OpPredict x => OpPredict (flip_row sx x)
    | OpAdapt d x => OpAdapt (flip1 sd d) (flip_row sx x)
    | OpRun d x => OpRun (flip_row sd d) (map (flip_row sx) x)
    | OpPretrained d x nt ep => OpPretrained (flip_row sd d) (map (flip_row sx) x) nt ep
    end.
  (** what the two calls give back: outputs and errors mirrored by sd, weights by sx xor sd; the same exception *)
  Definition mirror_result (like : bool -> T -> T -> Prop) (sx sd : bool) (r r' : result (@outv T)) : Prop :=
    match r, r' with
    | Ok VNone, Ok VNone => True
    | Ok (VNum y), Ok (VNum y') => like sd y y'
    | Ok (VRun y e w), Ok (VRun y' e' w') =>
        Forall2 (like sd) y y' /\ Forall2 (like sd) e e' /\ Forall2 (Forall2 (like (xorb sx sd))) w w'
    | Err x, Err x' => x = x'
    | _, _ => False
    end.
End Spec.

Section Props.
  Context {T : Type} {NT : Num T}.
  Notation vec := (list T).
  Notation mat := (list (list T)).
  Notation obj := (obj T).
  Variable like : bool -> T -> T -> Prop.
  Hypothesis HS : sign_blind like.

  Lemma flip_length s (x : vec) : length (flip_row s x) = length x.
  Proof. destruct s; [apply map_length|reflexivity]. Qed.
  Lemma flip_like s (x : vec) : Forall2 (like s) x (flip_row s x).
  Proof. destruct s; cbn [flip_row]; induction x as [|a x IH]; cbn [map]; constructor; auto; [apply (sb_opp _ HS)|apply (sb_refl _ HS)]. Qed.
  Lemma flip_dotsq s (x : vec) : ndot (flip_row s x) (flip_row s x) = ndot x x.
  Proof. destruct s; [apply (sb_dotsq _ HS)|reflexivity]. Qed.

  Lemma F2_length {A B} (P : A -> B -> Prop) u v : Forall2 P u v -> length u = length v.
  Proof. intros H. induction H; cbn [length]; congruence. Qed.
  Lemma map_like (s t : bool) (f g : T -> T) x x' : (forall a b, like s a b -> like t (f a) (g b)) ->
    Forall2 (like s) x x' -> Forall2 (like t) (map f x) (map g x').
  Proof. intros H HF. induction HF; cbn [map]; constructor; auto. Qed.
  Lemma add_like s u u' v v' : Forall2 (like s) u u' -> Forall2 (like s) v v' -> Forall2 (like s) (map2 nadd u v) (map2 nadd u' v').
  Proof.
    intros Hu; revert v v'. induction Hu as [|a a' u u' Ha Hu IH]; intros v v' Hv; [constructor|].
    destruct Hv as [|b b' v v' Hb Hv]; cbn [map2]; constructor; [apply (sb_add _ HS); auto|auto].
  Qed.

  Lemma mul_same s c a b : like s a b -> like s (nmul c a) (nmul c b).
  Proof. intros H. pose proof (sb_mul _ HS false s c c a b (sb_refl _ HS c) H) as H1. destruct s; exact H1. Qed.

  (** the increments *)
  Lemma rule_like (sx sd : bool) (o o' : obj) e e' x : plain (o_ext o) = true -> o_ext o' = o_ext o -> o_mu o' = o_mu o ->
    like sd e e' ->
    exists dw dw', learning_rule e x o = (o, Ok dw) /\ learning_rule e' (flip_row sx x) o' = (o', Ok dw') /\
      Forall2 (like (xorb sx sd)) dw dw' /\ length dw = length x.
  Proof.
    intros Hp Ex Em He. unfold learning_rule, bind, get, ret. rewrite Ex, Em. pose proof (flip_like sx x) as Hx.
    assert (HM : forall (m : T) (g : T -> T), (forall a b, like sx a b -> like sx (g a) (g b)) -> forall r r', like sd r r' ->
      Forall2 (like (xorb sx sd)) (map (fun xi => nmul (nmul m (g xi)) r) x) (map (fun xi => nmul (nmul m (g xi)) r') (flip_row sx x))).
    { intros m g Hg r r' Hr. apply (map_like sx); [|exact Hx]. intros a b Hab. apply (sb_mul _ HS); [|exact Hr].
      apply mul_same, Hg, Hab. }
    assert (HV : forall r r', like sd r r' -> Forall2 (like (xorb sx sd)) (vscale r x) (vscale r' (flip_row sx x))).
    { intros r r' Hr. unfold vscale. apply (map_like sx); [|exact Hx]. intros a b Hab.
      rewrite xorb_comm. apply (sb_mul _ HS); auto. }
    destruct (o_ext o) as [| | | |eps|eps|eps|la al|la| | | | | | |]; try discriminate Hp; cbv zeta; rewrite ?flip_dotsq;
      (do 2 eexists; split; [reflexivity|split; [reflexivity|split]]);
      try (unfold vscale; rewrite map_length; reflexivity); try apply repeat_length.
    - unfold zeros. rewrite flip_length. induction (length x) as [|k IH]; cbn [repeat]; constructor; [apply (sb_zero _ HS)|exact IH].
    - apply (HM _ (fun a => a)); auto.
    - apply (HM _ (fun a => a)); auto. apply (sb_cube _ HS); auto.
    - apply (HM _ nsign); [intros; apply (sb_sign _ HS); auto|]. apply (sb_sign _ HS); auto.
    - apply (HM _ (fun a => a)); auto.
    - apply (HM _ (fun a => a)); auto. apply (sb_cube _ HS); auto.
    - apply (HM _ nsign); [intros; apply (sb_sign _ HS); auto|]. apply (sb_sign _ HS); auto.
    - apply HV. rewrite (sb_abs _ HS sd e e' He). apply mul_same. apply (sb_sign _ HS); auto.
    - apply HV. apply mul_same. apply (sb_tanh _ HS). apply mul_same. exact He.
  Qed.

  (** two filters of the same class and settings, the second with mirrored weights *)
  Definition mirrored (n : nat) (sx sd : bool) (o o' : obj) : Prop :=
    wf n o /\ wf n o' /\ plain (o_ext o) = true /\ o_ext o' = o_ext o /\ o_mu o' = o_mu o /\
    Forall2 (like (xorb sx sd)) (o_w o) (o_w o').

  Lemma plain_AP (o : obj) : plain (o_ext o) = true -> is_AP o = false /\ is_OCNLMS o = false.
  Proof. unfold is_AP, is_OCNLMS. destruct (o_ext o); try discriminate; auto. Qed.

  Lemma dot_like sx sd (w w' : vec) x : length w = length x -> Forall2 (like (xorb sx sd)) w w' ->
    like sd (ndot w x) (ndot w' (flip_row sx x)).
  Proof.
    intros Hl Hw. pose proof (sb_dot _ HS (xorb sx sd) sx w w' x (flip_row sx x) Hl Hw (flip_like sx x)) as H.
    destruct sx, sd; exact H.
  Qed.

  Lemma predict_like n sx sd (o o' : obj) x : mirrored n sx sd o o' -> length x = n ->
    exists y y', predict x o = (o, Ok y) /\ predict (flip_row sx x) o' = (o', Ok y') /\ like sd y y'.
  Proof.
    intros (Hwf & Hwf' & Hp & Ex & Em & Hw) Hl.
    assert (Hp' : plain (o_ext o') = true) by congruence.
    rewrite (predict_plain o x), (predict_plain o' _) by (apply plain_AP; auto).
    destruct Hwf as (L & _), Hwf' as (L' & _). unfold vdot. rewrite flip_length, L, L', Hl, Nat.eqb_refl.
    do 2 eexists. split; [reflexivity|]. split; [reflexivity|]. apply dot_like; [congruence|exact Hw].
  Qed.

  Lemma adapt_like n sx sd (o o' : obj) d d' x : mirrored n sx sd o o' -> length x = n -> like sd d d' ->
    exists o1 o1', adapt d x o = (o1, Ok tt) /\ adapt d' (flip_row sx x) o' = (o1', Ok tt) /\ mirrored n sx sd o1 o1'.
  Proof.
    intros HM Hl Hd. destruct (predict_like n sx sd o o' x HM Hl) as (y & y' & P & P' & Hy).
    destruct HM as (Hwf & Hwf' & Hp & Ex & Em & Hw).
    assert (Hp' : plain (o_ext o') = true) by congruence.
    destruct (rule_like sx sd o o' (nsub d y) (nsub d' y') x Hp Ex Em (sb_sub _ HS sd _ _ _ _ Hd Hy))
      as (dw & dw' & R1 & R2 & Hdw & Ldw).
    pose proof (F2_length _ _ _ Hdw) as Ldw'.
    assert (A1 : adapt d x o = (set_w (map2 nadd (o_w o) dw) o, Ok tt)).
    { unfold adapt. unfold bind, get. rewrite (proj1 (plain_AP o Hp)). unfold adapt_base, bind. rewrite P, R1.
      apply (iadd_w_ok n); [apply Hwf|congruence]. }
    assert (A2 : adapt d' (flip_row sx x) o' = (set_w (map2 nadd (o_w o') dw') o', Ok tt)).
    { unfold adapt. unfold bind, get. rewrite (proj1 (plain_AP o' Hp')). unfold adapt_base, bind. rewrite P', R2.
      apply (iadd_w_ok n); [apply Hwf'|congruence]. }
    do 2 eexists. split; [exact A1|]. split; [exact A2|].
    assert (W1 : wf n (set_w (map2 nadd (o_w o) dw) o)).
    { destruct (adapt_ok n o d x Hwf Hl) as (o2 & r & H & Hw2 & _). congruence. }
    assert (W2 : wf n (set_w (map2 nadd (o_w o') dw') o')).
    { assert (Hl' : length (flip_row sx x) = n) by (rewrite flip_length; exact Hl).
      destruct (adapt_ok n o' d' _ Hwf' Hl') as (o2 & r & H & Hw2 & _). congruence. }
    split; [exact W1|]. split; [exact W2|]. cbn [set_w o_ext o_mu o_w]. repeat split; auto. apply add_like; auto.
  Qed.

  (** *** calls on two such filters *)
  Definition rlike {A} (P : A -> A -> Prop) (r r' : result A) : Prop :=
    match r, r' with Ok a, Ok a' => P a a' | Err x, Err x' => x = x' | _, _ => False end.
  Definition msim {A} n sx sd (P : A -> A -> Prop) (m m' : M obj A) : Prop :=
    forall o o', mirrored n sx sd o o' -> mirrored n sx sd (fst (m o)) (fst (m' o')) /\ rlike P (snd (m o)) (snd (m' o')).

  Lemma msim_bind {A B} n sx sd (P : A -> A -> Prop) (Q : B -> B -> Prop) m m' f f' :
    msim n sx sd P m m' -> (forall a a', P a a' -> msim n sx sd Q (f a) (f' a')) -> msim n sx sd Q (bind m f) (bind m' f').
  Proof.
    intros Hm Hf o o' H. destruct (Hm o o' H) as (H1 & H2). unfold bind.
    destruct (m o) as [o1 [a|x]], (m' o') as [o1' [a'|x']]; cbn [fst snd rlike] in *; try contradiction.
    - apply Hf; auto.
    - split; auto.
  Qed.
  Lemma msim_ret {A} n sx sd (P : A -> A -> Prop) a a' : P a a' -> msim n sx sd P (ret a) (ret a').
  Proof. intros H o o' Ho. split; [exact Ho|exact H]. Qed.
  Lemma msim_raise {A} n sx sd (P : A -> A -> Prop) x : msim n sx sd P (raise x) (raise x).
  Proof. intros o o' Ho. split; [exact Ho|reflexivity]. Qed.

  Lemma msim_predict n sx sd x : length x = n -> msim n sx sd (like sd) (predict x) (predict (flip_row sx x)).
  Proof.
    intros Hl o o' H. destruct (predict_like n sx sd o o' x H Hl) as (y & y' & -> & -> & Hy). split; auto.
  Qed.
  Lemma msim_adapt n sx sd d d' x : length x = n -> like sd d d' -> msim n sx sd eq (adapt d x) (adapt d' (flip_row sx x)).
  Proof.
    intros Hl Hd o o' H. destruct (adapt_like n sx sd o o' d d' x H Hl Hd) as (o1 & o1' & -> & -> & H1). split; [exact H1|reflexivity].
  Qed.

  Definition triple_like (sx sd : bool) (a b : vec * vec * mat) : Prop :=
    let '(y, e, w) := a in let '(y', e', w') := b in
    Forall2 (like sd) y y' /\ Forall2 (like sd) e e' /\ Forall2 (Forall2 (like (xorb sx sd))) w w'.

  Lemma traces_like n sx sd d : forall d' x o o', mirrored n sx sd o o' -> rowsl n x -> Forall2 (like sd) d d' ->
    length d = length x ->
    snd (adapt_all d x o) = Ok tt /\ snd (adapt_all d' (map (flip_row sx) x) o') = Ok tt /\
    mirrored n sx sd (fst (adapt_all d x o)) (fst (adapt_all d' (map (flip_row sx) x) o')) /\
    Forall2 (like sd) (ytrace d x o) (ytrace d' (map (flip_row sx) x) o') /\
    Forall2 (Forall2 (like (xorb sx sd))) (wtrace d x o) (wtrace d' (map (flip_row sx) x) o').
  Proof.
    induction d as [|a d IH]; intros d' [|x0 x] o o' HM Hx Hd Hl; try discriminate.
    - inversion Hd. cbn. split; [reflexivity|]. split; [reflexivity|]. split; [exact HM|]. split; constructor.
    - inversion Hd as [|? a' ? d1 Ha Hd1]; subst. cbn [length] in Hl. injection Hl as Hl.
      assert (H0 : length x0 = n) by exact (Forall_inv Hx). assert (Hr : rowsl n x) by exact (Forall_inv_tail Hx).
      destruct (adapt_like n sx sd o o' a a' x0 HM H0 Ha) as (o1 & o1' & A1 & A2 & HM1).
      destruct (IH d1 x o1 o1' HM1 Hr Hd1 Hl) as (I1 & I2 & I3 & I4 & I5).
      cbn [adapt_all map ytrace wtrace]. unfold bind. rewrite A1, A2. cbn [fst snd].
      split; [exact I1|]. split; [exact I2|]. split; [exact I3|]. split; constructor; auto; [|apply HM].
      destruct (predict_like n sx sd o o' x0 HM H0) as (y & y' & P & P' & Hy).
      destruct HM as (_ & _ & Hp & Ex & _). assert (Hp' : plain (o_ext o') = true) by congruence.
      unfold pred_out. rewrite (proj1 (plain_AP o Hp)), (proj1 (plain_AP o' Hp')), P, P'. exact Hy.
  Qed.
  Lemma sub_like s u u' v v' : Forall2 (like s) u u' -> Forall2 (like s) v v' -> Forall2 (like s) (map2 nsub u v) (map2 nsub u' v').
  Proof.
    intros Hu; revert v v'. induction Hu as [|a a' u u' Ha Hu IH]; intros v v' Hv; [constructor|].
    destruct Hv as [|b b' v v' Hb Hv]; cbn [map2]; constructor; [apply (sb_sub _ HS); auto|auto].
  Qed.
  Lemma flip_rows n sx (x : mat) : rowsl n x -> rowsl n (map (flip_row sx) x).
  Proof. intros H. induction H as [|a x Ha Hx IH]; cbn [map]; constructor; auto. rewrite flip_length. exact Ha. Qed.

  Lemma mirrored_hist n sx sd o o' h h' : mirrored n sx sd o o' -> mirrored n sx sd (set_hist h o) (set_hist h' o').
  Proof.
    intros (H1 & H2 & H3). split; [apply wf_set_hist; exact H1|]. split; [apply wf_set_hist; exact H2|]. exact H3.
  Qed.

  Lemma msim_run n sx sd d d' x : rowsl n x -> Forall2 (like sd) d d' ->
    msim n sx sd (triple_like sx sd) (run d x) (run d' (map (flip_row sx) x)).
  Proof.
    intros Hx Hd o o' HM. pose proof (F2_length _ _ _ Hd) as Ld.
    destruct (Nat.eq_dec (length d) (length x)) as [Hl|Hl].
    2:{ rewrite !run_bad_length by (rewrite ?map_length; congruence). split; [exact HM|reflexivity]. }
    destruct x as [|x0 x].
    { destruct d; [|discriminate]. inversion Hd. cbn [map]. rewrite !run_empty. split; [exact HM|reflexivity]. }
    destruct (traces_like n sx sd d d' (x0 :: x) o o' HM Hx Hd Hl) as (I1 & I2 & I3 & I4 & I5).
    destruct (run_eq n o d (x0 :: x)) as (h & Hr & _); [apply HM|exact Hx|exact Hl|discriminate|].
    destruct (run_eq n o' d' (map (flip_row sx) (x0 :: x))) as (h' & Hr' & _);
      [apply HM|apply flip_rows, Hx|rewrite map_length; congruence|discriminate|].
    rewrite Hr, Hr', I1, I2. cbn [fst snd rmap rlike triple_like]. split; [apply mirrored_hist, I3|].
    split; [exact I4|]. split; [apply sub_like; auto|exact I5].
  Qed.

  Lemma msim_repeat n sx sd k m m' : msim n sx sd eq m m' -> msim n sx sd eq (repeat_m k m) (repeat_m k m').
  Proof.
    intros H. induction k as [|k IH]; cbn [repeat_m]; [apply msim_ret; reflexivity|].
    eapply msim_bind; [exact H|]. intros a a' _. exact IH.
  Qed.
  Lemma flip_firstn s k (d : vec) : firstn k (flip_row s d) = flip_row s (firstn k d).
  Proof. destruct s; cbn [flip_row]; [apply firstn_map|reflexivity]. Qed.
  Lemma flip_skipn s k (d : vec) : skipn k (flip_row s d) = flip_row s (skipn k d).
  Proof. destruct s; cbn [flip_row]; [apply skipn_map|reflexivity]. Qed.
  Lemma flip1_like s d : like s d (flip1 s d).
  Proof. destruct s; [apply (sb_opp _ HS)|apply (sb_refl _ HS)]. Qed.

  Lemma msim_pretrained n sx sd d x nt ep : rowsl n x ->
    msim n sx sd (triple_like sx sd) (pretrained_run d x nt ep) (pretrained_run (flip_row sd d) (map (flip_row sx) x) nt ep).
  Proof.
    intros Hx. unfold pretrained_run. rewrite flip_length.
    set (N := ntrunc _). clearbody N. unfold slice_to, slice_from. rewrite flip_length, map_length.
    rewrite flip_firstn, flip_skipn, firstn_map, skipn_map. eapply msim_bind.
    - apply msim_repeat. eapply msim_bind; [apply msim_run; [apply firstn_rows, Hx|apply flip_like]|].
      intros a a' _. apply msim_ret. reflexivity.
    - intros _ _ _. apply msim_run; [apply skipn_rows, Hx|apply flip_like].
  Qed.

  Lemma call_like n sx sd p (o o' : obj) : mirrored n sx sd o o' -> op_shape n p ->
    mirrored n sx sd (exec p o) (exec (mirror_call sx sd p) o') /\
    mirror_result like sx sd (outcome p o) (outcome (mirror_call sx sd p) o').
  Proof.
    intros HM Hp. destruct p as [x|d x|d x|d x nt ep]; cbn [op_shape] in Hp; cbn [mirror_call exec outcome].
    - destruct (msim_predict n sx sd x Hp o o' HM) as (H1 & H2). split; [exact H1|].
      destruct (snd (predict x o)), (snd (predict _ o')); cbn [rlike rmap mirror_result] in *; auto.
    - destruct (msim_adapt n sx sd d _ x Hp (flip1_like sd d) o o' HM) as (H1 & H2). split; [exact H1|].
      destruct (snd (adapt d x o)), (snd (adapt _ _ o')); cbn [rlike rmap mirror_result] in *; auto.
    - destruct (msim_run n sx sd d _ x Hp (flip_like sd d) o o' HM) as (H1 & H2). split; [exact H1|].
      destruct (snd (run d x o)) as [[[y e] w]|], (snd (run _ _ o')) as [[[y' e'] w']|]; cbn [rlike rmap mirror_result] in *; auto.
    - destruct (msim_pretrained n sx sd d x nt ep Hp o o' HM) as (H1 & H2). split; [exact H1|].
      destruct (snd (pretrained_run d x nt ep o)) as [[[y e] w]|], (snd (pretrained_run _ _ _ _ o')) as [[[y' e'] w']|];
        cbn [rlike rmap mirror_result] in *; auto.
  Qed.
  Lemma calls_like n sx sd ps : forall (o o' : obj), mirrored n sx sd o o' -> Forall (op_shape n) ps ->
    mirrored n sx sd (exec_all ps o) (exec_all (map (mirror_call sx sd) ps) o') /\
    Forall2 (mirror_result like sx sd) (outcomes ps o) (outcomes (map (mirror_call sx sd) ps) o').
  Proof.
    induction ps as [|p ps IH]; intros o o' HM HF; [split; [exact HM|constructor]|].
    destruct (call_like n sx sd p o o' HM (Forall_inv HF)) as (H1 & H2).
    destruct (IH _ _ H1 (Forall_inv_tail HF)) as (I1 & I2). split; [exact I1|]. constructor; assumption.
  Qed.

  (** *** C74, any arithmetic.  Mirror every input (sx), every target (sd) and the initial weights (sx xor sd) of a
      memoryless filter: after any script of well-shaped calls the outputs, errors, weight histories and weights are
      mirrored, and a call raises exactly when its mirror image does. *)
  Theorem C74_mirror : forall rng rng' k (kw : kwargs T) n (o : obj) sx sd,
    memoryless k = true -> rng_ok rng -> sane_kw kw -> kw_n kw = Some (Z.of_nat n) -> new_filter rng k kw = Ok o ->
    exists g, new_filter rng' k (kw_restart kw (flip_row (xorb sx sd) (o_w o))) = Ok g /\
      forall ps, Forall (op_shape n) ps ->
        Forall2 (mirror_result like sx sd) (outcomes ps o) (outcomes (map (mirror_call sx sd) ps) g) /\
        Forall2 (like (xorb sx sd)) (o_w (exec_all ps o)) (o_w (exec_all (map (mirror_call sx sd) ps) g)).
  Proof.
    intros rng rng' k kw n o sx sd Hk Hrng Hs Hn Hnew.
    assert (Hwf : wf n o) by exact (new_filter_wf rng k kw n o Hrng Hs Hn Hnew).
    pose proof (memoryless_plain rng k kw n o Hk Hn Hnew) as Hp.
    destruct (new_again rng rng' k kw n o (WVec (flip_row (xorb sx sd) (o_w o))) (flip_row (xorb sx sd) (o_w o)) Hn Hnew)
      as (g & Hg & Gw & Gn & Gm & Gx).
    { apply init_weights_given. rewrite flip_length. apply Hwf. }
    exists g. split; [exact Hg|]. intros ps HF.
    assert (HM : mirrored n sx sd o g).
    { split; [exact Hwf|]. split; [|rewrite Gw; repeat split; auto; apply flip_like].
      destruct Hwf as (L & Ln & W). split; [rewrite Gw, flip_length; exact L|]. split; [exact Gn|].
      rewrite Gx. exact W. }
    destruct (calls_like n sx sd ps o g HM HF) as (H1 & H2). split; [exact H2|]. apply H1.
  Qed.
End Props.
