(** Property C29: the classes that are documented as gradient descents are; exact real arithmetic. *)
From Coq Require Import Reals Lra Psatz Ranalysis5.
From Verif Require Import Py Num Numpy Filters Registry Spec StructProofs RunProofs Reach RVec RFilter
  PropsStability.
Open Scope R_scope.

(** ** Specification *)
(** the cost functions of the error *)
Definition cost_lms (e : R) : R := e ^ 2 / 2.
Definition cost_lmf (e : R) : R := e ^ 4 / 4.
Definition cost_lncosh (la e : R) : R := ln (cosh (la * e)) / la.
Definition cost_gmcc (la al e : R) : R := - exp (- la * Rpowf (Rabs e) al).
(** the weights with the i-th one replaced *)
Definition with_weight (i : nat) (t : R) (w : rvec) : rvec := set_nth i t w.

(** g is the partial derivative, at the weights w, of the cost of the error d - w.x with respect to weight i *)
Definition partial_derivative (J : R -> R) (d : R) (x w : rvec) (i : nat) (g : R) : Prop :=
  derivable_pt_lim (fun t => J (d - Rdot (with_weight i t w) x)) (nth i w 0) g.

(** ** Derivatives *)
Lemma Rdot_with_weight i t w x : length w = length x -> (i < length w)%nat ->
  Rdot (with_weight i t w) x = Rdot w x + nth i x 0 * (t - nth i w 0).
Proof.
  unfold with_weight. revert x i; induction w as [|a w IH]; intros [|b x] [|i] Hl Hi; simpl in *; try lia; [ring|].
  rewrite IH by lia. ring.
Qed.

Lemma partial_chain J J' d x w i : length w = length x -> (i < length w)%nat ->
  derivable_pt_lim J (d - Rdot w x) J' -> partial_derivative J d x w i (- (J' * nth i x 0)).
Proof.
  intros Hl Hi HJ. unfold partial_derivative.
  set (phi := fun t => d - (Rdot w x + nth i x 0 * (t - nth i w 0))).
  apply (derivable_pt_lim_ext (comp J phi)).
  { intros t. unfold comp, phi. rewrite Rdot_with_weight by auto. reflexivity. }
  assert (Hphi : derivable_pt_lim phi (nth i w 0) (- nth i x 0)).
  { apply (derivable_pt_lim_ext (plus_fct (fct_cte (d - Rdot w x + nth i x 0 * nth i w 0)) (mult_real_fct (- nth i x 0) id))).
    - intros t. unfold plus_fct, fct_cte, mult_real_fct, id, phi. ring.
    - replace (- nth i x 0) with (0 + - nth i x 0 * 1) at 2 by ring.
      apply derivable_pt_lim_plus; [apply derivable_pt_lim_const|apply derivable_pt_lim_scal, derivable_pt_lim_id]. }
  replace (- (J' * nth i x 0)) with (J' * - nth i x 0) by ring.
  apply derivable_pt_lim_comp; [exact Hphi|].
  assert (Ep : phi (nth i w 0) = d - Rdot w x) by (unfold phi; ring). rewrite Ep. exact HJ.
Qed.

Lemma der_lms e : derivable_pt_lim cost_lms e e.
Proof.
  apply (derivable_pt_lim_ext (mult_real_fct (/ 2) (fun y => y ^ 2))); [intros t; unfold mult_real_fct, cost_lms; field|].
  replace e with (/ 2 * (INR 2 * e ^ pred 2)) at 2 by (simpl; field). apply derivable_pt_lim_scal, derivable_pt_lim_pow.
Qed.
Lemma der_lmf e : derivable_pt_lim cost_lmf e (e ^ 3).
Proof.
  apply (derivable_pt_lim_ext (mult_real_fct (/ 4) (fun y => y ^ 4))); [intros t; unfold mult_real_fct, cost_lmf; field|].
  replace (e ^ 3) with (/ 4 * (INR 4 * e ^ pred 4)) by (simpl; field). apply derivable_pt_lim_scal, derivable_pt_lim_pow.
Qed.
Lemma der_scale la e : derivable_pt_lim (fun t => la * t) e la.
Proof.
  apply (derivable_pt_lim_ext (mult_real_fct la id)); [reflexivity|].
  replace la with (la * 1) at 2 by ring. apply derivable_pt_lim_scal, derivable_pt_lim_id.
Qed.
Lemma der_lncosh la e : la <> 0 -> derivable_pt_lim (cost_lncosh la) e (tanh (la * e)).
Proof.
  intros Hla.
  assert (H1 : derivable_pt_lim (comp cosh (fun t => la * t)) e (sinh (la * e) * la)).
  { apply derivable_pt_lim_comp; [apply der_scale|apply derivable_pt_lim_cosh]. }
  assert (H2 : derivable_pt_lim (comp ln (comp cosh (fun t => la * t))) e (/ cosh (la * e) * (sinh (la * e) * la))).
  { apply derivable_pt_lim_comp; [exact H1|]. apply derivable_pt_lim_ln. apply cosh_pos. }
  apply (derivable_pt_lim_scal _ (/ la)) in H2.
  apply (derivable_pt_lim_ext (mult_real_fct (/ la) (comp ln (comp cosh (fun t => la * t))))).
  - intros t. unfold mult_real_fct, comp, cost_lncosh, Rdiv. ring.
  - replace (tanh (la * e)) with (/ la * (/ cosh (la * e) * (sinh (la * e) * la))); [exact H2|].
    unfold tanh. pose proof (cosh_pos (la * e)). field. split; lra.
Qed.

Lemma der_abspow al e : 1 < al \/ e <> 0 ->
  derivable_pt_lim (fun t => Rpowf (Rabs t) al) e (al * Rpowf (Rabs e) (al - 1) * Rsgn e).
Proof.
  intros Hae.
  assert (Hpos : forall a, 0 < a -> derivable_pt_lim (fun t => Rpowf (Rabs t) al) a (al * Rpower a (al - 1))).
  { intros a Ha. apply (derivable_pt_lim_locally_ext (fun t => Rpower t al) _ a 0 (a + 1)); [lra| |apply derivable_pt_lim_power; auto].
    intros z Hz. unfold Rpowf. rewrite (Rabs_pos_eq z) by lra. destruct (Req_EM_T z 0); [lra|reflexivity]. }
  destruct (Rtotal_order e 0) as [He|[He|He]].
  - unfold Rsgn. destruct (Rlt_dec e 0); [|lra]. unfold Rpowf at 2. rewrite (Rabs_left e) by auto.
    destruct (Req_EM_T (- e) 0); [lra|].
    pose proof (derivable_pt_lim_comp (fun t => -1 * t) (fun t => Rpowf (Rabs t) al) e (-1) (al * Rpower (- e) (al - 1)) (der_scale (-1) e)) as H.
    cbv beta in H. replace (-1 * e) with (- e) in H by ring. specialize (H (Hpos (- e) ltac:(lra))).
    apply (derivable_pt_lim_ext (comp (fun t => Rpowf (Rabs t) al) (fun t => -1 * t))); [|exact H].
    intros t. unfold comp. replace (-1 * t) with (- t) by ring. rewrite Rabs_Ropp. reflexivity.
  - subst e. assert (Hal : 1 < al) by (destruct Hae; lra). unfold Rsgn. destruct (Rlt_dec 0 0); [lra|]. rewrite Rmult_0_r.
    intros eps Heps. exists (mkposreal (Rpower eps (/ (al - 1))) ltac:(unfold Rpower; apply exp_pos)). intros h Hh Hd. cbn [pos] in Hd.
    rewrite Rplus_0_l, Rminus_0_r. unfold Rpowf at 2. rewrite Rabs_R0. destruct (Req_EM_T 0 0); [|lra]. destruct (Req_EM_T al 0); [lra|].
    rewrite Rminus_0_r. unfold Rpowf. assert (Hah : 0 < Rabs h) by (apply Rabs_pos_lt; auto). destruct (Req_EM_T (Rabs h) 0); [lra|].
    unfold Rdiv. rewrite Rabs_mult, Rabs_inv, (Rabs_pos_eq (Rpower _ _)) by (unfold Rpower; left; apply exp_pos).
    replace (Rpower (Rabs h) al) with (Rpower (Rabs h) (al - 1) * Rabs h).
    + rewrite Rmult_assoc, Rinv_r, Rmult_1_r by lra.
      apply (fun Hd => Rlt_Rpower_l _ _ (al - 1) ltac:(lra) (conj Hah Hd)) in Hd.
      rewrite Rpower_mult, Rinv_l, Rpower_1 in Hd by lra. exact Hd.
    + rewrite <- (Rpower_1 (Rabs h)) at 2 by auto. rewrite <- Rpower_plus. f_equal. ring.
  - unfold Rsgn. destruct (Rlt_dec e 0); [lra|]. destruct (Rlt_dec 0 e); [|lra]. rewrite Rmult_1_r.
    unfold Rpowf at 2. rewrite Rabs_pos_eq by lra. destruct (Req_EM_T e 0); [lra|]. apply Hpos; auto.
Qed.

Lemma der_gmcc la al e : 1 < al \/ e <> 0 ->
  derivable_pt_lim (cost_gmcc la al) e
    (la * al * exp (- la * Rpowf (Rabs e) al) * Rpowf (Rabs e) (al - 1) * Rsgn e).
Proof.
  intros H. pose proof (der_abspow al e H) as H1.
  apply (derivable_pt_lim_scal _ (- la)) in H1.
  pose proof (derivable_pt_lim_comp _ exp _ _ _ H1 (derivable_pt_lim_exp _)) as H2.
  apply derivable_pt_lim_opp in H2.
  match type of H2 with derivable_pt_lim ?f _ ?l => apply (derivable_pt_lim_ext f); [intros t; reflexivity|] end.
  replace (la * al * exp (- la * Rpowf (Rabs e) al) * Rpowf (Rabs e) (al - 1) * Rsgn e)
    with (- (exp (- la * Rpowf (Rabs e) al) * (- la * (al * Rpowf (Rabs e) (al - 1) * Rsgn e)))) by ring.
  exact H2.
Qed.

Section Grad.
  Variable solve : list rvec -> list rvec -> option (list rvec).
  #[local] Hint Extern 0 (Num R) => exact (RNum solve) : typeclass_instances.
  Notation obj := (obj R).

  Lemma grad_step n (o : obj) d x i J J' c : reachable n o -> length x = n -> (i < n)%nat ->
    textbook (o_ext o) (o_mu o) (d - Rdot (o_w o) x) x = Some (vsc c x) -> c = o_mu o * J' ->
    derivable_pt_lim J (d - Rdot (o_w o) x) J' ->
    exists o' g, adapt d x o = (o', Ok tt) /\ partial_derivative J d x (o_w o) i g /\
      nth i (o_w o') 0 = nth i (o_w o) 0 - o_mu o * g.
  Proof.
    intros Hr Hl Hi Ht Hc HJ. apply reachable_wf in Hr. pose proof Hr as (Hw & _).
    rewrite (adapt_textbook solve o d x (vsc c x)) by (auto; congruence).
    do 2 eexists. split; [reflexivity|]. split; [apply partial_chain; [congruence|lia|exact HJ]|].
    cbn [set_w o_w]. rewrite nth_vadd, nth_vsc by (rewrite vsc_length; congruence). rewrite Hc. ring.
  Qed.

  Theorem C29_LMS : forall n (o : obj) d x i, reachable n o -> o_ext o = XLMS -> length x = n -> (i < n)%nat ->
    exists o' g, adapt d x o = (o', Ok tt) /\ partial_derivative cost_lms d x (o_w o) i g /\
      nth i (o_w o') 0 = nth i (o_w o) 0 - o_mu o * g.
  Proof.
    intros n o d x i Hr E Hl Hi. eapply (grad_step n o d x i cost_lms (d - Rdot (o_w o) x)); [exact Hr|exact Hl|exact Hi|rewrite E; reflexivity|reflexivity|apply der_lms].
  Qed.
  Theorem C29_LMF : forall n (o : obj) d x i, reachable n o -> o_ext o = XLMF -> length x = n -> (i < n)%nat ->
    exists o' g, adapt d x o = (o', Ok tt) /\ partial_derivative cost_lmf d x (o_w o) i g /\
      nth i (o_w o') 0 = nth i (o_w o) 0 - o_mu o * g.
  Proof.
    intros n o d x i Hr E Hl Hi. eapply (grad_step n o d x i cost_lmf ((d - Rdot (o_w o) x) ^ 3)); [exact Hr|exact Hl|exact Hi|rewrite E; reflexivity|reflexivity|apply der_lmf].
  Qed.
  Theorem C29_Llncosh : forall n (o : obj) la d x i, reachable n o -> o_ext o = XLlncosh la -> la <> 0 ->
    length x = n -> (i < n)%nat ->
    exists o' g, adapt d x o = (o', Ok tt) /\ partial_derivative (cost_lncosh la) d x (o_w o) i g /\
      nth i (o_w o') 0 = nth i (o_w o) 0 - o_mu o * g.
  Proof.
    intros n o la d x i Hr E Hla Hl Hi. eapply (grad_step n o d x i (cost_lncosh la) (tanh (la * (d - Rdot (o_w o) x)))); [exact Hr|exact Hl|exact Hi|rewrite E; reflexivity|reflexivity|apply der_lncosh; auto].
  Qed.
  (** for alpha <= 1 the cost has no derivative at a zero error *)
  Theorem C29_GMCC : forall n (o : obj) la al d x i, reachable n o -> o_ext o = XGMCC la al ->
    1 < al \/ d - Rdot (o_w o) x <> 0 -> length x = n -> (i < n)%nat ->
    exists o' g, adapt d x o = (o', Ok tt) /\ partial_derivative (cost_gmcc la al) d x (o_w o) i g /\
      nth i (o_w o') 0 = nth i (o_w o) 0 - o_mu o * g.
  Proof.
    intros n o la al d x i Hr E Hal Hl Hi. eapply (grad_step n o d x i (cost_gmcc la al) (la * al * exp (- la * Rpowf (Rabs (d - Rdot (o_w o) x)) al) * Rpowf (Rabs (d - Rdot (o_w o) x)) (al - 1) * Rsgn (d - Rdot (o_w o) x))); [exact Hr|exact Hl|exact Hi|rewrite E; reflexivity| |apply der_gmcc; auto]. cbv beta. ring.
  Qed.
  (** the normalised variants: the gradient of the same cost, with the rate divided by eps + |x|^2 *)
  Theorem C29_normalised : forall n (o : obj) eps d x i J, reachable n o ->
    (o_ext o = XNLMS eps /\ J = cost_lms) \/ (o_ext o = XNLMF eps /\ J = cost_lmf) -> 0 < eps ->
    length x = n -> (i < n)%nat ->
    exists o' g, adapt d x o = (o', Ok tt) /\ partial_derivative J d x (o_w o) i g /\
      nth i (o_w o') 0 = nth i (o_w o) 0 - o_mu o / (eps + normsq x) * g.
  Proof.
    intros n o eps d x i J Hr HE Heps Hl Hi. apply reachable_wf in Hr. pose proof Hr as (Hw & _).
    assert (Hs : forall c J', textbook (o_ext o) (o_mu o) (d - Rdot (o_w o) x) x = Some (vsc c x) -> c = o_mu o / (eps + normsq x) * J' ->
      derivable_pt_lim J (d - Rdot (o_w o) x) J' ->
      exists o' g, adapt d x o = (o', Ok tt) /\ partial_derivative J d x (o_w o) i g /\
        nth i (o_w o') 0 = nth i (o_w o) 0 - o_mu o / (eps + normsq x) * g).
    { intros c J' Ht Hc HJ. rewrite (adapt_textbook solve o d x (vsc c x)) by (auto; congruence).
      do 2 eexists. split; [reflexivity|]. split; [apply partial_chain; [congruence|lia|exact HJ]|].
      cbn [set_w o_w]. rewrite nth_vadd, nth_vsc by (rewrite vsc_length; congruence). rewrite Hc. ring. }
    destruct HE as [(E & ->)|(E & ->)]; [eapply Hs; [rewrite E; reflexivity|reflexivity|apply der_lms]|eapply Hs; [rewrite E; reflexivity|reflexivity|apply der_lmf]].
  Qed.

  Example C29_hypotheses :
    (exists o : obj, reachable 2 o /\ o_ext o = XLMS) /\ (exists o : obj, reachable 2 o /\ o_ext o = XLMF) /\
    (exists o : obj, reachable 2 o /\ o_ext o = XLlncosh 3) /\ (exists o : obj, reachable 2 o /\ o_ext o = XGMCC 1 2) /\
    (exists o : obj, reachable 2 o /\ o_ext o = XNLMS 1) /\ (exists o : obj, reachable 2 o /\ o_ext o = XNLMF 1) /\
    length [1; 2] = 2%nat /\ (1 < 2)%nat.
  Proof.
    assert (HH : forall k mu eps la al c, new_filter rngR k (kwR mu eps la al) = Ok (fresh2 mu c) -> exists o : obj, reachable 2 o /\ o_ext o = c).
    { intros k mu eps la al c H. exists (fresh2 mu c). split; [|reflexivity]. apply (reach_new 2 rngR k (kwR mu eps la al)); auto using rngR_ok.
      split; intros ? Hs; discriminate Hs. }
    split; [apply (HH KLMS 1 None None None); reflexivity|].
    split; [apply (HH KLMF 1 None None None); reflexivity|].
    split; [apply (HH KLlncosh 1 None (Some 3) None); reflexivity|].
    split; [apply (HH KGMCC 1 None (Some 1) (Some 2)); reflexivity|].
    split; [apply (HH KNLMS 1 (Some 1) None None); reflexivity|].
    split; [apply (HH KNLMF 1 (Some 1) None None); reflexivity|]. split; [reflexivity|lia].
  Qed.
End Grad.
