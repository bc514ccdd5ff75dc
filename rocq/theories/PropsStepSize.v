(** Property C49: how the variable step-size classes change their step size; exact real arithmetic.
    GNGD (regularisation) and VSLMS_Mathews (step size) descend along the derivative of the squared error of the
    next sample; VSLMS_Benveniste computes the exact sensitivity of the weights to the step size but multiplies it by
    the previous instead of the current input, so that its step is not that derivative. *)
From Coq Require Import Reals Lra Psatz Qreals.
From Verif Require Import Py Num NumQ Numpy Filters Registry Spec StructProofs RunProofs Reach RVec RFilter Steps RMat
  PropsStability PropsAlgebra PropsRLS PropsSymmetry PropsGradient PropsRun.
Open Scope R_scope.

(** ** Specification *)
(** half the squared a-priori error at (d, x) of a filter with weights w *)
Definition half_sq_error (d : R) (x w : rvec) : R := (d - Rdot w x) ^ 2 / 2.
(** the LMS weights after one sample with step size m *)
Definition lms_with (m : R) (d : R) (x w : rvec) : rvec := vadd w (vsc (m * (d - Rdot w x)) x).
(** the NLMS weights after one sample with regularisation eps *)
Definition nlms_with (mu eps : R) (d : R) (x w : rvec) : rvec :=
  vadd w (vsc (mu / (eps + normsq x) * (d - Rdot w x)) x).
(** the LMS weights after a series of samples when every step size m_k is replaced by m_k + t *)
Fixpoint lms_shifted (t : R) (ms : rvec) (d : rvec) (x : list rvec) (w : rvec) : rvec :=
  match ms, d, x with
  | m :: ms', d0 :: d', x0 :: x' => lms_shifted t ms' d' x' (lms_with (m + t) d0 x0 w)
  | _, _, _ => w
  end.

(** public attributes of the filter: last_mu of the VSLMS classes, eps of GNGD, last_fi of Benveniste *)
Definition step_size (o : obj R) : R :=
  match o_ext o with XAng _ _ _ _ _ m | XBenveniste _ _ _ _ m | XMathews _ _ _ m => m | _ => 0 end.
Definition regularisation (o : obj R) : R := match o_ext o with XGNGD eps _ _ _ => eps | _ => 0 end.
Definition sensitivity (o : obj R) : rvec := match o_ext o with XBenveniste _ _ _ fi _ => fi | _ => [] end.

(** ** Derivatives *)
Lemma der_quad (a b t : R) : derivable_pt_lim (fun s => (a - b * s) ^ 2 / 2) t (- (b * (a - b * t))).
Proof.
  pose proof (der_lms (a - b * t)) as HJ.
  assert (Hp : derivable_pt_lim (fun s => a - b * s) t (- b)).
  { apply (derivable_pt_lim_ext (plus_fct (fct_cte a) (mult_real_fct (- b) id))).
    - intros s. unfold plus_fct, fct_cte, mult_real_fct, id. ring.
    - replace (- b) with (0 + - b * 1) at 2 by ring.
      apply derivable_pt_lim_plus; [apply derivable_pt_lim_const|apply derivable_pt_lim_scal, derivable_pt_lim_id]. }
  replace (- (b * (a - b * t))) with ((a - b * t) * - b) by ring.
  exact (derivable_pt_lim_comp (fun s => a - b * s) cost_lms t (- b) (a - b * t) Hp HJ).
Qed.

Lemma der_recip (c : R) (eps s : R) : eps + s <> 0 -> derivable_pt_lim (fun t => c / (t + s)) eps (- c / (eps + s) ^ 2).
Proof.
  intros H.
  assert (Hp : derivable_pt_lim (fun t => t + s) eps 1).
  { replace 1 with (1 + 0) by ring. apply (derivable_pt_lim_plus id (fct_cte s)); [apply derivable_pt_lim_id|apply derivable_pt_lim_const]. }
  pose proof (derivable_pt_lim_div (fct_cte c) (fun t => t + s) eps 0 1 (derivable_pt_lim_const c eps) Hp H) as Hd.
  replace (- c / (eps + s) ^ 2) with ((0 * (eps + s) - 1 * fct_cte c eps) / (eps + s)²).
  - exact Hd.
  - unfold fct_cte, Rsqr. field. exact H.
Qed.

Section StepSize.
  Variable solve : list rvec -> list rvec -> option (list rvec).
  #[local] Hint Extern 0 (Num R) => exact (RNum solve) : typeclass_instances.
  Notation obj := (obj R).

  Lemma dot_move w x c x2 : length w = length x2 -> length x = length x2 ->
    Rdot (vadd w (vsc c x)) x2 = Rdot w x2 + c * Rdot x x2.
  Proof. intros H1 H2. rewrite Rdot_vadd_l by (rewrite ?vsc_length; congruence). rewrite Rdot_vsc_l. reflexivity. Qed.

  (** two consecutive samples of VSLMS_Mathews: the second step size is the first one moved by minus ro times the
      derivative, with respect to the first step size, of half the squared error of the second sample *)
  Theorem C49_Mathews : forall n (o : obj) ro le lx lm d1 x1 d2 x2,
    reachable n o -> o_ext o = XMathews ro le lx lm -> length x1 = n -> length x2 = n ->
    exists o1 o2 g, adapt d1 x1 o = (o1, Ok tt) /\ adapt d2 x2 o1 = (o2, Ok tt) /\
      o_w o1 = lms_with (step_size o1) d1 x1 (o_w o) /\
      o_w o2 = lms_with (step_size o2) d2 x2 (o_w o1) /\
      derivable_pt_lim (fun m => half_sq_error d2 x2 (lms_with m d1 x1 (o_w o))) (step_size o1) g /\
      step_size o2 = step_size o1 - ro * g.
  Proof.
    intros n o ro le lx lm d1 x1 d2 x2 Hr E L1 L2. apply reachable_wf in Hr. pose proof Hr as (Lw & _).
    pose proof (adapt_Mathews n o d1 x1 ro le lx lm Hr L1 E) as A1. cbv zeta in A1.
    change (nsub d1 (ndot (o_w o) x1)) with (d1 - Rdot (o_w o) x1) in A1.
    set (e1 := d1 - Rdot (o_w o) x1) in *.
    set (m1 := nadd lm (nmul (nmul (nmul ro e1) le) (ndot lx x1))) in *.
    destruct (adapt_ok n o d1 x1 Hr L1) as (o1' & r1 & E1 & W1 & _). rewrite A1 in E1. injection E1 as E1 _.
    set (o1 := set_w _ _) in *. rewrite <- E1 in W1.
    pose proof (adapt_Mathews n o1 d2 x2 ro e1 x1 m1 W1 L2 eq_refl) as A2. cbv zeta in A2.
    change (nsub d2 (ndot (o_w o1) x2)) with (d2 - Rdot (o_w o1) x2) in A2.
    set (e2 := d2 - Rdot (o_w o1) x2) in *. set (m2 := nadd m1 _) in *.
    exists o1. eexists. exists (- (e1 * Rdot x1 x2 * e2)).
    split; [exact A1|]. split; [exact A2|].
    assert (Hs1 : step_size o1 = m1) by reflexivity.
    split; [rewrite Hs1; reflexivity|]. split; [reflexivity|]. rewrite Hs1. split.
    - apply (derivable_pt_lim_ext (fun m => ((d2 - Rdot (o_w o) x2) - (e1 * Rdot x1 x2) * m) ^ 2 / 2)).
      + intros m. unfold half_sq_error, lms_with. fold e1. rewrite dot_move by congruence. f_equal. f_equal. ring.
      + replace (- (e1 * Rdot x1 x2 * e2)) with (- (e1 * Rdot x1 x2 * ((d2 - Rdot (o_w o) x2) - (e1 * Rdot x1 x2) * m1))); [apply der_quad|].
        unfold e2. change (o_w o1) with (vadd (o_w o) (vsc (m1 * e1) x1)). rewrite dot_move by congruence. ring.
    - change (m2 = m1 - ro * - (e1 * Rdot x1 x2 * e2)). unfold m2.
      change (m1 + ro * e2 * e1 * Rdot x1 x2 = m1 - ro * - (e1 * Rdot x1 x2 * e2)). ring.
  Qed.

  (** two consecutive samples of GNGD: likewise for the regularisation eps *)
  Theorem C49_GNGD : forall n (o : obj) eps ro le lx d1 x1 d2 x2,
    reachable n o -> o_ext o = XGNGD eps ro le lx -> length x1 = n -> length x2 = n ->
    exists o1 o2, adapt d1 x1 o = (o1, Ok tt) /\ adapt d2 x2 o1 = (o2, Ok tt) /\ o_mu o1 = o_mu o /\ o_mu o2 = o_mu o /\
      o_w o1 = nlms_with (o_mu o) (regularisation o1) d1 x1 (o_w o) /\
      o_w o2 = nlms_with (o_mu o) (regularisation o2) d2 x2 (o_w o1) /\
      (regularisation o1 + normsq x1 <> 0 ->
       exists g, derivable_pt_lim (fun t => half_sq_error d2 x2 (nlms_with (o_mu o) t d1 x1 (o_w o))) (regularisation o1) g /\
       regularisation o2 = regularisation o1 - ro * g).
  Proof.
    intros n o eps ro le lx d1 x1 d2 x2 Hr E L1 L2. apply reachable_wf in Hr. pose proof Hr as (Lw & _).
    pose proof (adapt_GNGD n o d1 x1 eps ro le lx Hr L1 E) as A1. cbv zeta in A1.
    change (nsub d1 (ndot (o_w o) x1)) with (d1 - Rdot (o_w o) x1) in A1.
    set (e1 := d1 - Rdot (o_w o) x1) in *. set (p1 := gngd_eps _ _ _ _ _ _ _) in A1.
    destruct (adapt_ok n o d1 x1 Hr L1) as (o1' & r1 & E1 & W1 & _). rewrite A1 in E1. injection E1 as E1 _.
    set (o1 := set_w _ _) in *. rewrite <- E1 in W1.
    pose proof (adapt_GNGD n o1 d2 x2 p1 ro e1 x1 W1 L2 eq_refl) as A2. cbv zeta in A2.
    change (nsub d2 (ndot (o_w o1) x2)) with (d2 - Rdot (o_w o1) x2) in A2.
    set (e2 := d2 - Rdot (o_w o1) x2) in *. set (p2 := gngd_eps _ _ _ _ _ _ _) in A2.
    exists o1. eexists. split; [exact A1|]. split; [exact A2|]. split; [reflexivity|]. split; [reflexivity|].
    split; [reflexivity|]. split; [reflexivity|].
    change (regularisation o1) with p1. intros Hd. set (mu := o_mu o) in *.
    set (h := fun t => mu / (t + normsq x1)).
    assert (Hh : derivable_pt_lim h p1 (- mu / (p1 + normsq x1) ^ 2)) by (apply der_recip; exact Hd).
    pose proof (der_quad (d2 - Rdot (o_w o) x2) (e1 * Rdot x1 x2) (h p1)) as Hq.
    pose proof (derivable_pt_lim_comp h _ p1 _ _ Hh Hq) as Hc.
    eexists. split.
    - eapply derivable_pt_lim_ext; [|exact Hc]. intros t. unfold comp, half_sq_error, nlms_with. fold e1.
      rewrite dot_move by congruence. unfold h. f_equal. f_equal. ring.
    - cbn [regularisation set_w set_ext o_ext].
      assert (He2 : e2 = d2 - Rdot (o_w o) x2 - e1 * Rdot x1 x2 * h p1).
      { unfold e2. change (o_w o1) with (vadd (o_w o) (vsc (mu / (p1 + normsq x1) * e1) x1)). rewrite dot_move by congruence. unfold h. ring. }
      rewrite <- He2. change (p2 = p1 - ro * (- (e1 * Rdot x1 x2 * e2) * (- mu / (p1 + normsq x1) ^ 2))).
      unfold p2, gngd_eps. change (@ndot R (RNum solve)) with Rdot. fold (normsq x1).
      change (p1 - ro * mu * e2 * e1 * Rdot x2 x1 / (normsq x1 + p1) ^ 2 = p1 - ro * (- (e1 * Rdot x1 x2 * e2) * (- mu / (p1 + normsq x1) ^ 2))).
      rewrite (Rdot_comm x2 x1), (Rplus_comm (normsq x1)). field. exact Hd.
  Qed.

  (** *** Benveniste *)
  (** f is a curve of weight vectors through w with velocity v at t = 0 *)
  Definition velocity (n : nat) (f : R -> rvec) (v : rvec) : Prop :=
    (forall t, length (f t) = n) /\ length v = n /\
    forall i, (i < n)%nat -> derivable_pt_lim (fun t => nth i (f t) 0) 0 (nth i v 0).

  Lemma der_dot n f v x : velocity n f v -> length x = n -> derivable_pt_lim (fun t => Rdot (f t) x) 0 (Rdot v x).
  Proof.
    intros (Hf & Hv & Hd) Hx.
    apply (derivable_pt_lim_ext (fun t => sumn n (fun i => nth i (f t) 0 * nth i x 0))).
    { intros t. symmetry. apply Rdot_sumn; auto. }
    rewrite (Rdot_sumn n v x) by auto.
    assert (H : forall m, (m <= n)%nat -> derivable_pt_lim (fun t => sumn m (fun i => nth i (f t) 0 * nth i x 0)) 0 (sumn m (fun i => nth i v 0 * nth i x 0))).
    { induction m as [|m IH]; intros Hm; cbn [sumn]; [apply derivable_pt_lim_const|].
      apply (derivable_pt_lim_plus (fun t => sumn m (fun i => nth i (f t) 0 * nth i x 0)) (fun t => nth m (f t) 0 * nth m x 0)); [apply IH; lia|].
      apply (derivable_pt_lim_ext (mult_real_fct (nth m x 0) (fun t => nth m (f t) 0))); [intros t; unfold mult_real_fct; ring|].
      rewrite (Rmult_comm (nth m v 0)). apply derivable_pt_lim_scal, Hd. lia. }
    apply H; lia.
  Qed.

  Lemma velocity_step n f v m d x : velocity n f v -> length x = n ->
    velocity n (fun t => lms_with (m + t) d x (f t))
      (vadd (vsub v (vsc (m * Rdot x v) x)) (vsc (d - Rdot (f 0) x) x)).
  Proof.
    intros Hf Hx. pose proof (der_dot n f v x Hf Hx) as HD. destruct Hf as (Hf & Hv & Hd). unfold lms_with. split; [|split].
    - intros t. apply vadd_length; rewrite ?vsc_length; auto.
    - apply vadd_length; [apply vsub_length; rewrite ?vsc_length; auto|rewrite vsc_length; auto].
    - intros i Hi.
      apply (derivable_pt_lim_ext (plus_fct (fun t => nth i (f t) 0) (mult_real_fct (nth i x 0) (mult_fct (fun t => m + t) (fun t => d - Rdot (f t) x))))).
      { intros t. unfold plus_fct, mult_real_fct, mult_fct. rewrite nth_vadd, nth_vsc by (rewrite vsc_length, Hf; auto). ring. }
      rewrite nth_vadd, nth_vsub, !nth_vsc by (rewrite ?vsc_length, ?(vsub_length _ _ n); rewrite ?vsc_length; auto; congruence).
      replace (nth i v 0 - m * Rdot x v * nth i x 0 + (d - Rdot (f 0) x) * nth i x 0)
        with (nth i v 0 + nth i x 0 * (1 * (d - Rdot (f 0) x) + (m + 0) * (0 - Rdot v x))) by (rewrite (Rdot_comm x v); ring).
      apply derivable_pt_lim_plus; [apply Hd; auto|]. apply derivable_pt_lim_scal.
      apply (derivable_pt_lim_mult (fun t => m + t) (fun t => d - Rdot (f t) x)).
      + replace 1 with (0 + 1) by ring. apply (derivable_pt_lim_plus (fct_cte m) id); [apply derivable_pt_lim_const|apply derivable_pt_lim_id].
      + apply (derivable_pt_lim_minus (fct_cte d) (fun t => Rdot (f t) x)); [apply derivable_pt_lim_const|exact HD].
  Qed.

  Definition ben_velocity (n : nat) (o : obj) (f : R -> rvec) : Prop :=
    wf n o /\ f 0 = o_w o /\
    exists ro le lx lf lm, o_ext o = XBenveniste ro le lx lf lm /\ velocity n f (ben_fi n lm le lx lf).

  Lemma ben_velocity_step n (o : obj) f d x : ben_velocity n o f -> length x = n ->
    exists o1, adapt d x o = (o1, Ok tt) /\ ben_velocity n o1 (fun t => lms_with (step_size o1 + t) d x (f t)) /\
      velocity n f (sensitivity o1).
  Proof.
    intros (Hwf & H0 & ro & le & lx & lf & lm & E & HV) Hl.
    pose proof (adapt_Benveniste n o d x ro le lx lf lm Hwf Hl E) as A. cbv zeta in A.
    change (nsub d (ndot (o_w o) x)) with (d - Rdot (o_w o) x) in A.
    destruct (adapt_ok n o d x Hwf Hl) as (o1' & r1 & E1 & W1 & _). rewrite A in E1. apply (f_equal fst) in E1. cbn [fst] in E1. subst o1'.
    eexists. split; [exact A|]. split; [|exact HV]. split; [exact W1|].
    set (fi := ben_fi n lm le lx lf) in *. set (m := nadd lm _) in *. unfold step_size. cbn [set_w set_ext o_w o_ext].
    split.
    - cbv beta. unfold lms_with. rewrite Rplus_0_r, H0. reflexivity.
    - do 5 eexists. split; [reflexivity|]. rewrite (ben_closed solve) by (auto; apply HV).
      rewrite <- H0. apply velocity_step; auto.
  Qed.

  (** VSLMS_Benveniste: after any series of samples, the attribute last_fi computed with the next sample is the
      derivative of the current weights with respect to a common shift t of all the step sizes used so far *)
  Theorem C49_Benveniste_sensitivity : forall rng (kw : kwargs R) n (o0 : obj) d x d' x',
    rng_ok rng -> sane_kw kw -> kw_n kw = Some (Z.of_nat n) -> new_filter rng KBenveniste kw = Ok o0 ->
    rows_of n x -> length d = length x -> length x' = n ->
    exists o o' ms, adapt_all d x o0 = (o, Ok tt) /\ adapt d' x' o = (o', Ok tt) /\
      length ms = length x /\
      (forall k, (k < length x)%nat -> nth k ms 0 = step_size (state_after (S k) d x o0)) /\
      lms_shifted 0 ms d x (o_w o0) = o_w o /\
      (forall i, (i < n)%nat ->
        derivable_pt_lim (fun t => nth i (lms_shifted t ms d x (o_w o0)) 0) 0 (nth i (sensitivity o') 0)).
  Proof.
    intros rng kw n o0 d x d' x' Hrng Hkw Hn Hnew Hx Hld Hx'.
    pose proof (new_filter_wf rng KBenveniste kw n o0 Hrng Hkw Hn Hnew) as Hwf.
    assert (Hb : ben_velocity n o0 (fun _ => o_w o0)).
    { assert (HE : exists ro m, o_ext o0 = XBenveniste ro 0 (repeat 0 n) (repeat 0 n) m).
      { revert Hnew. unfold new_filter. destruct (kw_other kw); [discriminate|]. destruct (existsb _ _); [discriminate|].
        rewrite Hn. match goal with |- match ?mm with _ => _ end = _ -> _ => destruct mm as [mu|]; [|discriminate] end.
        destruct (init_base _ _ _ _ _) as [ob|]; [|discriminate]. cbn [rbind].
        destruct (init_ext KBenveniste _ _ mu) as [xx|] eqn:Ex; [|discriminate]. cbn [rmap]. intros H; injection H as <-.
        cbn in Ex. injection Ex as <-. rewrite Nat2Z.id. do 2 eexists. reflexivity. }
      destruct HE as (ro & m & E). split; [exact Hwf|]. split; [reflexivity|]. do 5 eexists. split; [exact E|].
      rewrite (ben_closed solve) by apply repeat_length. split; [|split].
      - intros _; apply Hwf.
      - apply vadd_length; [apply vsub_length|]; rewrite ?vsc_length; apply repeat_length.
      - intros i Hi. rewrite nth_vadd, nth_vsub, !nth_vsc by (rewrite ?vsc_length, ?(vsub_length _ _ n); rewrite ?vsc_length; rewrite ?repeat_length; auto).
        rewrite !nth_repeat. replace (0 - m * Rdot (repeat 0 n) (repeat 0 n) * 0 + 0 * 0) with 0 by ring. apply derivable_pt_lim_const. }
    clear Hnew.
    assert (HG : forall f, ben_velocity n o0 f -> exists o ms, adapt_all d x o0 = (o, Ok tt) /\ length ms = length x /\
      (forall k, (k < length x)%nat -> nth k ms 0 = step_size (state_after (S k) d x o0)) /\
      ben_velocity n o (fun t => lms_shifted t ms d x (f t))).
    { clear Hwf Hb. revert x o0 Hx Hld. induction d as [|d0 d IH]; intros [|x0 x] o0 Hx Hld f Hb; try discriminate Hld.
      - exists o0, []. cbn [length]. split; [reflexivity|]. split; [reflexivity|]. split; [intros k Hk; lia|]. exact Hb.
      - pose proof (Forall_inv Hx) as Hx0. apply Forall_inv_tail in Hx. cbn [length] in Hld.
        destruct (ben_velocity_step n o0 f d0 x0 Hb Hx0) as (o1 & A1 & Hb1 & _).
        destruct (IH x o1 Hx ltac:(lia) _ Hb1) as (o & ms & A & Hlm & Hk & HB).
        exists o, (step_size o1 :: ms). split; [cbn [adapt_all]; unfold bind; rewrite A1; exact A|].
        split; [cbn [length]; lia|]. split; [|exact HB].
        intros [|k] Hkk; cbn [nth length] in *.
        + unfold state_after. cbn [firstn adapt_all]. unfold bind. rewrite A1. destruct (firstn 0 d), (firstn 0 x); reflexivity.
        + rewrite (Hk k) by lia. unfold state_after. cbn [firstn adapt_all]. unfold bind. rewrite A1. reflexivity. }
    destruct (HG _ Hb) as (o & ms & A & Hlm & Hk & HB).
    destruct (ben_velocity_step n o _ d' x' HB Hx') as (o' & A' & _ & HV).
    exists o, o', ms. split; [exact A|]. split; [exact A'|]. split; [exact Hlm|]. split; [exact Hk|].
    split; [apply HB|]. intros i Hi. apply (proj2 (proj2 HV)). exact Hi.
  Qed.

  (** a new VSLMS_Benveniste or VSLMS_Ang filter and two orthogonal inputs: the error of the second sample does not
      depend on the step size of the first one, yet the step size is changed by ro e1 e2 |x1|^2 *)
  Theorem C49_Benveniste_Ang_gradient_refuted : forall n (o : obj) ro lm d1 x1 d2 x2,
    reachable n o ->
    (o_ext o = XBenveniste ro 0 (repeat 0 n) (repeat 0 n) lm \/ exists a, o_ext o = XAng ro a 0 (repeat 0 n) (repeat 0 n) lm) ->
    length x1 = n -> length x2 = n -> Rdot x1 x2 = 0 ->
    exists o1 o2, adapt d1 x1 o = (o1, Ok tt) /\ adapt d2 x2 o1 = (o2, Ok tt) /\
      o_w o1 = lms_with (step_size o1) d1 x1 (o_w o) /\
      derivable_pt_lim (fun m => half_sq_error d2 x2 (lms_with m d1 x1 (o_w o))) (step_size o1) 0 /\
      step_size o2 = step_size o1 + ro * (d1 - Rdot (o_w o) x1) * (d2 - Rdot (o_w o) x2) * normsq x1.
  Proof.
    intros n o ro lm d1 x1 d2 x2 Hr HE L1 L2 H12. apply reachable_wf in Hr. pose proof Hr as (Lw & _).
    assert (Hder : forall m, derivable_pt_lim (fun m => half_sq_error d2 x2 (lms_with m d1 x1 (o_w o))) m 0).
    { intros m. apply (derivable_pt_lim_ext (fct_cte ((d2 - Rdot (o_w o) x2) ^ 2 / 2))); [|apply derivable_pt_lim_const].
      intros t. unfold fct_cte, half_sq_error, lms_with. rewrite dot_move by congruence. rewrite H12. f_equal. f_equal. ring. }
    destruct (adapt_ok n o d1 x1 Hr L1) as (o1 & r1 & E1 & W1 & _).
    assert (H : exists a, r1 = Ok tt /\ o_w o1 = lms_with lm d1 x1 (o_w o) /\
      (o_ext o1 = XBenveniste ro (d1 - Rdot (o_w o) x1) x1 (repeat 0 n) lm \/
       o_ext o1 = XAng ro a (d1 - Rdot (o_w o) x1) x1 (repeat 0 n) lm)).
    { destruct HE as [E|(a & E)].
      - exists 0. pose proof (adapt_Benveniste n o d1 x1 ro 0 (repeat 0 n) (repeat 0 n) lm Hr L1 E) as A. cbv zeta in A.
        rewrite E1 in A. assert (Hfi : ben_fi n lm 0 (repeat 0 n) (repeat 0 n) = repeat 0 n).
        { rewrite (ben_closed solve) by apply repeat_length. rewrite !vsc_repeat0.
          assert (Hs : vsub (repeat 0 n) (repeat 0 n) = repeat 0 n).
          { apply nth_ext0; [rewrite (vsub_length _ _ n), repeat_length; rewrite ?repeat_length; auto|]. intros i Hi.
            rewrite nth_vsub by reflexivity. rewrite !nth_repeat. ring. }
          rewrite Hs. apply vadd_zero_r, repeat_length. }
        rewrite Hfi in A. change (@ndot R (RNum solve)) with Rdot in A. rewrite Rdot_zero_l in A.
        assert (Hm : nadd lm (nmul (nmul ro (nsub d1 (Rdot (o_w o) x1))) 0) = lm) by (cbn; ring). rewrite Hm in A.
        injection A as -> ->. split; [reflexivity|]. split; [reflexivity|]. left. reflexivity.
      - exists a. pose proof (adapt_Ang n o d1 x1 ro a 0 (repeat 0 n) (repeat 0 n) lm Hr L1 E) as A. cbv zeta in A.
        rewrite E1 in A. change (@vscale R (RNum solve)) with vsc in A. rewrite !vsc_repeat0 in A.
        assert (Hs : map2 nadd (repeat 0 n) (repeat 0 n) = repeat 0 n) by (apply vadd_zero_r, repeat_length). rewrite Hs in A.
        change (@ndot R (RNum solve)) with Rdot in A. rewrite Rdot_zero_l in A.
        assert (Hm : nadd lm (nmul (nmul ro (nsub d1 (Rdot (o_w o) x1))) 0) = lm) by (cbn; ring). rewrite Hm in A.
        injection A as -> ->. split; [reflexivity|]. split; [reflexivity|]. right. reflexivity. }
    destruct H as (a & -> & Hw1 & HX).
    set (e1 := d1 - Rdot (o_w o) x1) in *.
    assert (Hs1 : step_size o1 = lm) by (unfold step_size; destruct HX as [-> | ->]; reflexivity).
    assert (He2 : d2 - Rdot (o_w o1) x2 = d2 - Rdot (o_w o) x2).
    { rewrite Hw1. unfold lms_with. rewrite dot_move by congruence. rewrite H12. ring. }
    destruct (adapt_ok n o1 d2 x2 W1 L2) as (o2 & r2 & E2 & W2 & _).
    assert (H : r2 = Ok tt /\ step_size o2 = lm + ro * (d2 - Rdot (o_w o1) x2) * (e1 * normsq x1)).
    { destruct HX as [HX|HX].
      - pose proof (adapt_Benveniste n o1 d2 x2 ro e1 x1 (repeat 0 n) lm W1 L2 HX) as A. cbv zeta in A.
        rewrite E2 in A. injection A as -> ->. split; [reflexivity|]. unfold step_size. cbn [set_w set_ext o_ext].
        rewrite (ben_closed solve) by (rewrite ?repeat_length; auto). rewrite Rdot_zero_r, Rmult_0_r, vsc_zero.
        rewrite L1.
        assert (Hs : vsub (repeat 0 n) (repeat 0 n) = repeat 0 n).
        { apply nth_ext0; [rewrite (vsub_length _ _ n), repeat_length; rewrite ?repeat_length; auto|]. intros i Hi.
          rewrite nth_vsub by reflexivity. rewrite !nth_repeat. ring. }
        rewrite Hs. change (@ndot R (RNum solve)) with Rdot.
        rewrite Rdot_vadd_r by (rewrite ?vsc_length, ?repeat_length; congruence). rewrite Rdot_zero_r, Rdot_vsc_r.
        fold (normsq x1). cbn [nadd nmul nsub RNum]. ring.
      - pose proof (adapt_Ang n o1 d2 x2 ro a e1 x1 (repeat 0 n) lm W1 L2 HX) as A. cbv zeta in A.
        rewrite E2 in A. injection A as -> ->. split; [reflexivity|]. unfold step_size. cbn [set_w set_ext o_ext].
        change (@vscale R (RNum solve)) with vsc. rewrite vsc_repeat0. change (@ndot R (RNum solve)) with Rdot.
        change (map2 nadd (repeat 0 n) (vsc e1 x1)) with (vadd (repeat 0 n) (vsc e1 x1)).
        rewrite Rdot_vadd_r by (rewrite ?vsc_length, ?repeat_length; congruence). rewrite Rdot_zero_r, Rdot_vsc_r.
        fold (normsq x1). cbn [nadd nmul nsub RNum]. ring. }
    destruct H as (-> & Hs2). exists o1, o2. rewrite Hs1, Hs2, He2, Hw1.
    split; [exact E1|]. split; [exact E2|]. split; [reflexivity|]. split; [apply Hder|]. fold e1. ring.
  Qed.

  Example C49_hypotheses :
    (exists o : obj, reachable 2 o /\ o_ext o = XMathews (1 / 10) 0 [0; 0] (1 / 2)) /\
    (exists o : obj, reachable 2 o /\ o_ext o = XGNGD 1 (1 / 10) 0 [0; 0]) /\
    (exists o : obj, new_filter rngR KBenveniste (kwE (1 / 2) ws0 None (Some (1 / 10)) None) = Ok o /\ reachable 2 o /\
       o_ext o = XBenveniste (1 / 10) 0 (repeat 0 2) (repeat 0 2) (1 / 2)) /\
    Rdot [1; 0] [0; 1] = 0 /\
    (** for this filter, x1 = (1, 0), d1 = 1, x2 = (0, 1), d2 = 1 the change is not zero *)
    1 / 10 * (1 - Rdot ws0 [1; 0]) * (1 - Rdot ws0 [0; 1]) * normsq [1; 0] <> 0.
  Proof.
    split; [|split; [|split; [|split]]].
    - destruct (new_filter rngR KMathews (kwE (1 / 2) ws0 None (Some (1 / 10)) None)) as [o|] eqn:E; [|discriminate E].
      pose proof (kwE_reachable0 solve _ _ _ _ _ o E) as Hr. exists o. split; [exact Hr|]. injection E as <-. reflexivity.
    - destruct (new_filter rngR KGNGD (kwE (1 / 2) ws0 (Some 1) (Some (1 / 10)) None)) as [o|] eqn:E; [|discriminate E].
      pose proof (kwE_reachable0 solve _ _ _ _ _ o E) as Hr. exists o. split; [exact Hr|]. injection E as <-. reflexivity.
    - destruct (new_filter rngR KBenveniste (kwE (1 / 2) ws0 None (Some (1 / 10)) None)) as [o|] eqn:E; [|discriminate E].
      pose proof (kwE_reachable0 solve _ _ _ _ _ o E) as Hr. exists o. split; [reflexivity|]. split; [exact Hr|]. injection E as <-. reflexivity.
    - cbn. lra.
    - unfold normsq, ws0. cbn. lra.
  Qed.
End StepSize.
