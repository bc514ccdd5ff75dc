(** C59: LMS and NLMS follow a system that changes over time (exact real arithmetic). *)
From Coq Require Import Reals Lra Psatz.
From Verif Require Import Py Num Numpy Filters Registry Spec StructProofs RunProofs Reach RVec RFilter PropsStability PropsNoise.
Open Scope R_scope.

(** ** Specification *)
(** Euclidean length and distance *)
Definition norm (v : rvec) : R := sqrt (normsq v).
Definition dist (u v : rvec) : R := sqrt (distsq u v).
(** the system at time k is S k (any sequence of weight vectors); what is left of target k is disturbance *)
Definition disturbance (Sys : nat -> rvec) (x : list rvec) (d : rvec) (k : nat) : R := nth k d 0 - Rdot (Sys k) (nth k x []).
Definition drift_at (Sys : nat -> rvec) (k : nat) : R := dist (Sys k) (Sys (S k)).

Lemma norm_pos v : 0 <= norm v. Proof. apply sqrt_pos. Qed.
Lemma norm_sq v : norm v * norm v = normsq v. Proof. apply sqrt_sqrt, normsq_nonneg. Qed.
Lemma norm_vsc c v : norm (vsc c v) = Rabs c * norm v.
Proof.
  unfold norm. rewrite normsq_vsc, sqrt_mult by (try apply normsq_nonneg; nra). f_equal.
  replace (c * c) with (Rsqr c) by reflexivity. apply sqrt_Rsqr_abs.
Qed.
Lemma norm_vadd u v : length u = length v -> norm (vadd u v) <= norm u + norm v.
Proof.
  intros H. apply Rsqr_incr_0_var; [|pose proof (norm_pos u); pose proof (norm_pos v); lra].
  unfold Rsqr. rewrite norm_sq, normsq_vadd by exact H.
  pose proof (Cauchy_Schwarz u v) as CS. rewrite <- !norm_sq in *.
  pose proof (norm_pos u) as Pu. pose proof (norm_pos v) as Pv. set (a := norm u) in *. set (b := norm v) in *. set (c := Rdot u v) in *.
  assert (c <= a * b). { apply Rnot_lt_le. intros Hc. assert (0 <= a * b) by (apply Rmult_le_pos; auto). nra. }
  lra.
Qed.
Lemma dist_norm u v : dist u v = norm (vsub u v). Proof. reflexivity. Qed.
Lemma dist_triangle a b c n : length a = n -> length b = n -> length c = n -> dist a c <= dist a b + dist b c.
Proof.
  intros La Lb Lc. rewrite !dist_norm. replace (vsub a c) with (vadd (vsub a b) (vsub b c)).
  - apply norm_vadd. rewrite !(vsub_length _ _ n); auto.
  - apply nth_ext0; [rewrite (vadd_length _ _ n), (vsub_length _ _ n); auto using vsub_length|].
    intros j _. rewrite nth_vadd by (rewrite !(vsub_length _ _ n); auto). rewrite !nth_vsub by congruence. ring.
Qed.

(** moving by g * (s.x - w.x + v) along x, with 0 <= g and g |x|^2 <= 2 *)
Lemma gradient_move n w s x g v : length w = n -> length s = n -> length x = n -> 0 <= g -> g * normsq x <= 2 ->
  dist (vadd w (vsc (g * (Rdot s x + v - Rdot w x)) x)) s <= dist w s + g * (Rabs v * norm x).
Proof.
  intros Lw Ls Lx Hg H2. set (m := Rdot s x - Rdot w x).
  assert (E : vsub (vadd w (vsc (g * (Rdot s x + v - Rdot w x)) x)) s = vadd (vsub (vadd w (vsc (g * m) x)) s) (vsc (g * v) x)).
  { apply nth_ext0.
    - rewrite (vsub_length _ _ n), (vadd_length _ _ n); auto; rewrite ?vsc_length; auto; try apply vsub_length; try apply vadd_length; rewrite ?vsc_length; auto.
    - intros j _. rewrite nth_vsub by (rewrite (vadd_length _ _ n); rewrite ?vsc_length; auto).
      rewrite !nth_vadd by (rewrite ?vsc_length; try rewrite (vsub_length _ _ n); rewrite ?(vadd_length _ _ n); rewrite ?vsc_length; congruence).
      rewrite nth_vsub by (rewrite (vadd_length _ _ n); rewrite ?vsc_length; auto).
      rewrite nth_vadd by (rewrite vsc_length; congruence). rewrite !nth_vsc. unfold m. ring. }
  rewrite dist_norm, E. eapply Rle_trans.
  { apply norm_vadd. rewrite (vsub_length _ _ n); auto; [rewrite vsc_length; auto|apply vadd_length; rewrite ?vsc_length; auto]. }
  apply Rplus_le_compat.
  - rewrite <- dist_norm. apply sqrt_le_1_alt. rewrite distsq_move by congruence. fold m.
    replace (Rdot w x - Rdot s x) with (- m) by (unfold m; ring).
    assert (0 <= g * (m ^ 2 * (2 - g * normsq x))) by (apply Rmult_le_pos; auto; apply Rmult_le_pos; [apply pow2_ge_0|lra]). nra.
  - rewrite norm_vsc, Rabs_mult, (Rabs_right g) by lra. lra.
Qed.

Section S.
  Variable solve : list rvec -> list rvec -> option (list rvec).
  #[local] Hint Extern 0 (Num R) => exact (RNum solve) : typeclass_instances.
  Notation obj := (obj R).

  Lemma track n (o o' : obj) d x y e w (Sys : nat -> rvec) (G : rvec -> R) :
    reachable n o -> (forall e v, textbook (o_ext o) (o_mu o) e v = Some (vsc (G v * e) v)) ->
    rows_of n x -> (forall k, length (Sys k) = n) -> run d x o = (o', Ok (y, e, w)) ->
    (forall k, (k < length x)%nat -> 0 <= G (nth k x []) /\ G (nth k x []) * normsq (nth k x []) <= 2) ->
    dist (o_w o') (Sys (length x)) <= dist (o_w o) (Sys 0%nat) +
      total (length x) (fun k => drift_at Sys k + G (nth k x []) * (Rabs (disturbance Sys x d k) * norm (nth k x []))).
  Proof.
    intros Hr Hg Hx HS E Hc. apply reachable_wf in Hr.
    assert (Ht : forall e v, textbook (o_ext o) (o_mu o) e v <> None) by (intros; rewrite Hg; discriminate).
    assert (Hl : length d = length x).
    { destruct (Nat.eq_dec (length d) (length x)) as [|Hne]; auto. rewrite run_bad_length in E by assumption; discriminate. }
    assert (Hne : x <> []) by (intros ->; destruct d; discriminate).
    assert (Hlw : length w = length x /\ wrow w (o_w o') 0 = o_w o).
    { destruct (run_eq n o d x Hr Hx Hl Hne) as (h & E' & _).
      rewrite E in E'. destruct (snd (adapt_all d x o)); [|discriminate].
      simpl in E'. injection E' as _ _ _ ->. split; [apply wtrace_length; auto|].
      unfold wrow; destruct d, x; [congruence|discriminate|discriminate|reflexivity]. }
    destruct Hlw as (Hlw & Hw0).
    set (f := fun k => drift_at Sys k + G (nth k x []) * (Rabs (disturbance Sys x d k) * norm (nth k x []))).
    assert (Hm : forall m, (m <= length x)%nat -> dist (wrow w (o_w o') m) (Sys m) <= dist (o_w o) (Sys 0%nat) + total m f).
    { induction m as [|m IH]; intros Hm; [rewrite Hw0; unfold total; simpl; lra|].
      specialize (IH ltac:(lia)). rewrite total_S.
      destruct (run_textbook solve n o o' d x y e w m Hr Hx Ht E ltac:(lia)) as (dw & Htb & Hrow & Hy & He & Hl1 & Hl2).
      rewrite Hg in Htb. injection Htb as <-.
      set (xk := nth m x []) in *. set (wk := wrow w (o_w o') m) in *.
      assert (Lw1 : length (vadd wk (vsc (G xk * nth m e 0) xk)) = n) by (apply vadd_length; rewrite ?vsc_length; congruence).
      rewrite Hrow. eapply Rle_trans; [apply (dist_triangle _ (Sys m) _ n); auto|].
      destruct (Hc m ltac:(lia)) as (Hc1 & Hc2). fold xk in Hc1, Hc2.
      assert (Hed : nth m e 0 = Rdot (Sys m) xk + disturbance Sys x d m - Rdot wk xk).
      { rewrite He, Hy. unfold disturbance. fold xk. ring. }
      rewrite Hed.
      pose proof (gradient_move n wk (Sys m) xk (G xk) (disturbance Sys x d m)) as HM.
      specialize (HM ltac:(congruence) (HS m) ltac:(congruence) Hc1 Hc2). unfold f at 2. fold xk. unfold drift_at. lra. }
    specialize (Hm (length x) (le_n _)). unfold wrow in Hm. rewrite app_nth2, Hlw, Nat.sub_diag in Hm by lia. exact Hm.
  Qed.

  (** *** For every sequence of systems and every targets: the final distance to the current system is at most the
      initial one, plus the path the system went, plus the disturbances weighted with the step. *)
  Theorem C59_LMS_tracking : forall n (o o' : obj) d x y e w (Sys : nat -> rvec),
    reachable n o -> o_ext o = XLMS -> rows_of n x -> (forall k, length (Sys k) = n) -> run d x o = (o', Ok (y, e, w)) ->
    0 <= o_mu o -> (forall k, (k < length x)%nat -> o_mu o * normsq (nth k x []) <= 2) ->
    dist (o_w o') (Sys (length x)) <= dist (o_w o) (Sys 0%nat) +
      total (length x) (fun k => drift_at Sys k + o_mu o * (Rabs (disturbance Sys x d k) * norm (nth k x []))).
  Proof.
    intros n o o' d x y e w Sys Hr Ex Hx HS E Hmu Hc.
    apply (track n o o' d x y e w Sys (fun _ => o_mu o)); auto. intros e0 v. rewrite Ex. reflexivity.
  Qed.

  Theorem C59_NLMS_tracking : forall n (o o' : obj) d x y e w (Sys : nat -> rvec) eps,
    reachable n o -> o_ext o = XNLMS eps -> rows_of n x -> (forall k, length (Sys k) = n) -> run d x o = (o', Ok (y, e, w)) ->
    0 <= o_mu o <= 2 -> 0 <= eps -> (forall k, (k < length x)%nat -> 0 < eps + normsq (nth k x [])) ->
    dist (o_w o') (Sys (length x)) <= dist (o_w o) (Sys 0%nat) +
      total (length x) (fun k => drift_at Sys k + o_mu o / (eps + normsq (nth k x [])) * (Rabs (disturbance Sys x d k) * norm (nth k x []))).
  Proof.
    intros n o o' d x y e w Sys eps Hr Ex Hx HS E Hmu Heps Hp.
    apply (track n o o' d x y e w Sys (fun v => o_mu o / (eps + normsq v))); auto.
    - intros e0 v. rewrite Ex. reflexivity.
    - intros k Hk. specialize (Hp k Hk). set (s := normsq (nth k x [])) in *. assert (Hs : 0 <= s) by apply normsq_nonneg.
      assert (0 < / (eps + s)) by (apply Rinv_0_lt_compat; exact Hp).
      split; [apply Rmult_le_pos; lra|].
      apply Rmult_le_reg_r with (eps + s); [lra|]. replace (o_mu o / (eps + s) * s * (eps + s)) with (o_mu o * s) by (field; lra). nra.
  Qed.

  (** the hypotheses are met by a drifting system with disturbed targets *)
  Example C59_hypotheses : exists (o o' : obj) d x y e w (Sys : nat -> rvec),
    reachable 2 o /\ o_ext o = XLMS /\ rows_of 2 x /\ (forall k, length (Sys k) = 2%nat) /\ run d x o = (o', Ok (y, e, w)) /\
    0 <= o_mu o /\ (forall k, (k < length x)%nat -> o_mu o * normsq (nth k x []) <= 2) /\
    0 < drift_at Sys 0 /\ disturbance Sys x d 1 <> 0.
  Proof.
    set (xs := [[1; 0]; [1; 1]]).
    assert (Hx : rows_of 2 xs) by (repeat constructor).
    assert (Hr : reachable 2 (fresh2 (1 / 2) XLMS)) by (apply (fresh2_reachable solve (1 / 2) None None None KLMS); reflexivity).
    destruct (run_exists solve 2 (fresh2 (1 / 2) XLMS) [1; 2] xs Hr Hx eq_refl) as (o' & y & e & w & E);
      [discriminate|intros ex H; exact H|].
    exists (fresh2 (1 / 2) XLMS), o', [1; 2], xs, y, e, w, (fun k => [INR k; 0]). split; [exact Hr|]. split; [reflexivity|]. split; [exact Hx|].
    split; [reflexivity|]. split; [exact E|]. split; [simpl; lra|]. split; [|split].
    - intros [|[|k]] Hk; unfold normsq; simpl in *; try lia; lra.
    - unfold drift_at, dist. apply sqrt_lt_R0. unfold distsq, normsq. simpl. lra.
    - unfold disturbance. change (nth 1 [1; 2] 0) with 2. change (nth 1 xs []) with [1; 1]. simpl. lra.
  Qed.
End S.
