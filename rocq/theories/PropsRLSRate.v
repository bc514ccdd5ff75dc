(** C55: how fast RLS identifies a system (exact real arithmetic). *)
From Coq Require Import Reals Lra Psatz.
From Verif Require Import Py Num Numpy Filters Registry Spec StructProofs RunProofs Reach RVec RFilter PropsStability Steps PropsAlgebra RMat PropsRLS.
Open Scope R_scope.

(** ** Specification: how strongly samples 0..k-1 excite the direction v, the older ones discounted by mu *)
Definition excitation (mu : R) (x : list rvec) (k : nat) (v : rvec) : R :=
  sumn k (fun i => mu ^ (k - 1 - i) * Rdot v (nth i x []) ^ 2).

Lemma sumn_split a b f : sumn (a + b) f = sumn a f + sumn b (fun i => f (a + i)%nat).
Proof.
  induction b as [|b IH]; [rewrite Nat.add_0_r; cbn [sumn]; lra|]. rewrite Nat.add_succ_r. cbn [sumn]. rewrite IH. lra.
Qed.

Section S.
  Variable solve : list rvec -> list rvec -> option (list rvec).
  #[local] Hint Extern 0 (Num R) => exact (RNum solve) : typeclass_instances.
  Notation obj := (obj R).

  (** Noise-free targets: in every direction that the first k samples have excited with strength at least alpha, i.e. if
      they excite all directions with that strength, the squared weight error is at most mu^k eps |w0 - ws|^2 / alpha. *)
  Theorem C55_RLS_error_bound : forall rng (kw : kwargs R) n (o o' : obj) eps R0 d x y e w ws,
    rng_ok rng -> sane_kw kw -> kw_n kw = Some (Z.of_nat n) -> new_filter rng KRLS kw = Ok o ->
    o_ext o = XRLS eps R0 -> 0 < eps -> 0 < o_mu o ->
    rows_of n x -> length ws = n -> noise_free ws d x -> run d x o = (o', Ok (y, e, w)) ->
    forall k, (k <= length x)%nat ->
      excitation (o_mu o) x k (vsub (wrow w (o_w o') k) ws) + o_mu o ^ k * eps * distsq (wrow w (o_w o') k) (o_w o)
        <= o_mu o ^ k * eps * distsq ws (o_w o) /\
      forall alpha, 0 < alpha ->
        (forall v, length v = n -> alpha * normsq v <= excitation (o_mu o) x k v) ->
        distsq (wrow w (o_w o') k) ws <= o_mu o ^ k * eps * distsq ws (o_w o) / alpha.
  Proof.
    intros rng kw n o o' eps R0 d x y e w ws Hrng Hkw Hn H E Heps Hmu Hx Hws Hnf Hrun k Hk.
    destruct (C21_least_squares solve rng kw n o o' eps R0 d x y e w Hrng Hkw Hn H E Heps Hmu Hx Hrun k Hk) as (Lk & Hbest).
    set (wk := wrow w (o_w o') k) in *. set (mu := o_mu o) in *.
    assert (Hle : ls_cost mu eps (o_w o) d x k wk <= ls_cost mu eps (o_w o) d x k ws).
    { destruct (list_eq_dec Req_EM_T ws wk) as [->|Hne]; [lra|]. left. apply Hbest; auto. }
    assert (Hx' : forall i, (i < k)%nat -> length (nth i x []) = n).
    { intros i Hi. unfold rows_of in Hx. rewrite Forall_forall in Hx. apply Hx, nth_In. lia. }
    assert (H1 : excitation mu x k (vsub wk ws) + mu ^ k * eps * distsq wk (o_w o) <= mu ^ k * eps * distsq ws (o_w o)).
    { unfold ls_cost in Hle.
      assert (E1 : sumn k (fun i => mu ^ (k - 1 - i) * (nth i d 0 - Rdot wk (nth i x [])) ^ 2) = excitation mu x k (vsub wk ws)).
      { unfold excitation. apply sumn_ext. intros i Hi. rewrite (Hnf i ltac:(lia)). f_equal. specialize (Hx' i Hi).
        rewrite Rdot_vsub_l by congruence. ring. }
      assert (E2 : sumn k (fun i => mu ^ (k - 1 - i) * (nth i d 0 - Rdot ws (nth i x [])) ^ 2) = 0).
      { rewrite (sumn_ext k _ (fun i => 0 * 0)); [rewrite sumn_scal; ring|]. intros i Hi. rewrite (Hnf i ltac:(lia)). ring. }
      rewrite E1, E2 in Hle. lra. }
    split; [exact H1|]. intros alpha Ha Hex. specialize (Hex (vsub wk ws) (vsub_length _ _ _ Lk Hws)).
    assert (Hp : 0 <= mu ^ k * eps * distsq wk (o_w o)).
    { apply Rmult_le_pos; [|apply normsq_nonneg]. apply Rmult_le_pos; [apply pow_le; lra|lra]. }
    apply Rmult_le_reg_l with alpha; [exact Ha|]. unfold Rdiv. rewrite (Rmult_comm _ (/ alpha)), <- (Rmult_assoc alpha), Rinv_r by lra.
    unfold distsq at 1. lra.
  Qed.

  (** every window of m consecutive samples excites all directions with strength at least alpha *)
  Definition exciting_list (n m : nat) (alpha : R) (x : list rvec) : Prop :=
    0 < alpha /\ forall j v, (j + m <= length x)%nat -> length v = n ->
      alpha * normsq v <= sumn m (fun i => Rdot v (nth (j + i) x []) ^ 2).

  (** with a forgetting factor below one the error decays exponentially *)
  Theorem C55_RLS_exponential : forall rng (kw : kwargs R) n (o o' : obj) eps R0 d x y e w ws m alpha,
    rng_ok rng -> sane_kw kw -> kw_n kw = Some (Z.of_nat n) -> new_filter rng KRLS kw = Ok o ->
    o_ext o = XRLS eps R0 -> 0 < eps -> 0 < o_mu o <= 1 ->
    rows_of n x -> length ws = n -> noise_free ws d x -> run d x o = (o', Ok (y, e, w)) ->
    exciting_list n m alpha x ->
    forall k, (m <= k <= length x)%nat ->
      distsq (wrow w (o_w o') k) ws <= eps * distsq ws (o_w o) / alpha * o_mu o ^ (k - m).
  Proof.
    intros rng kw n o o' eps R0 d x y e w ws m alpha Hrng Hkw Hn H E Heps Hmu Hx Hws Hnf Hrun (Ha & Hex) k Hk.
    destruct (C55_RLS_error_bound rng kw n o o' eps R0 d x y e w ws Hrng Hkw Hn H E Heps (proj1 Hmu) Hx Hws Hnf Hrun k (proj2 Hk)) as (_ & Hb).
    set (mu := o_mu o) in *. assert (Hpm : 0 < mu ^ m) by (apply pow_lt; lra).
    refine (Rle_trans _ _ _ (Hb (mu ^ m * alpha) _ _) _).
    - apply Rmult_lt_0_compat; lra.
    - intros v Hv. unfold excitation. replace k with ((k - m) + m)%nat at 1 by lia. rewrite sumn_split.
      assert (H0 : 0 <= sumn (k - m) (fun i => mu ^ (k - 1 - i) * Rdot v (nth i x []) ^ 2)).
      { apply sumn_nonneg. intros i _. apply Rmult_le_pos; [apply pow_le; lra|apply pow2_ge_0]. }
      apply Rle_trans with (mu ^ m * sumn m (fun i => Rdot v (nth ((k - m) + i) x []) ^ 2)).
      + rewrite Rmult_assoc. apply Rmult_le_compat_l; [lra|]. apply Hex; [lia|exact Hv].
      + rewrite <- sumn_scal. refine (Rle_trans _ _ _ _ (Rplus_le_compat_r _ _ _ H0)). rewrite Rplus_0_l.
        apply sumn_le. intros i Hi. apply Rmult_le_compat_r; [apply pow2_ge_0|].
        replace m with ((k - 1 - (k - m + i)) + (m - (k - 1 - (k - m + i))))%nat at 1 by lia. rewrite pow_add.
        rewrite <- (Rmult_1_r (mu ^ (k - 1 - (k - m + i)))) at 2. apply Rmult_le_compat_l; [apply pow_le; lra|].
        rewrite <- (pow1 (m - (k - 1 - (k - m + i)))). apply pow_incr. lra.
    - right. replace k with ((k - m) + m)%nat at 1 by lia. rewrite pow_add. field. split; apply Rgt_not_eq; lra.
  Qed.

  (** without forgetting (mu = 1) it decays like one over the number of samples *)
  Theorem C55_RLS_growing_window : forall rng (kw : kwargs R) n (o o' : obj) eps R0 d x y e w ws m alpha,
    rng_ok rng -> sane_kw kw -> kw_n kw = Some (Z.of_nat n) -> new_filter rng KRLS kw = Ok o ->
    o_ext o = XRLS eps R0 -> 0 < eps -> o_mu o = 1 ->
    rows_of n x -> length ws = n -> noise_free ws d x -> run d x o = (o', Ok (y, e, w)) ->
    exciting_list n m alpha x ->
    forall q, (1 <= q)%nat -> (q * m <= length x)%nat ->
      distsq (wrow w (o_w o') (q * m)) ws <= eps * distsq ws (o_w o) / (INR q * alpha).
  Proof.
    intros rng kw n o o' eps R0 d x y e w ws m alpha Hrng Hkw Hn H E Heps Hmu Hx Hws Hnf Hrun (Ha & Hex) q Hq1 Hq.
    assert (Hmu0 : 0 < o_mu o) by lra.
    destruct (C55_RLS_error_bound rng kw n o o' eps R0 d x y e w ws Hrng Hkw Hn H E Heps Hmu0 Hx Hws Hnf Hrun (q * m) Hq) as (_ & Hb).
    rewrite Hmu in Hb. rewrite pow1, Rmult_1_l in Hb. apply Hb.
    - apply Rmult_lt_0_compat; [apply lt_0_INR; lia|exact Ha].
    - intros v Hv. unfold excitation.
      rewrite (sumn_ext _ _ (fun i => Rdot v (nth i x []) ^ 2)) by (intros; rewrite pow1; ring). clear Hq1 Hb.
      induction q as [|q IH]; [simpl; lra|]. replace (S q * m)%nat with (q * m + m)%nat by lia. rewrite sumn_split, S_INR.
      specialize (IH ltac:(lia)). specialize (Hex (q * m)%nat v ltac:(lia) Hv). lra.
  Qed.

  Definition kw55 (mu : R) : kwargs R := kwE mu [0; 0] (Some 1) None None.
  Example C55_hypotheses : exists (o o' : obj) R0 y e w,
    sane_kw (kw55 (1 / 2)) /\ kw_n (kw55 (1 / 2)) = Some (Z.of_nat 2) /\ new_filter rngR KRLS (kw55 (1 / 2)) = Ok o /\
    o_ext o = XRLS 1 R0 /\ 0 < o_mu o <= 1 /\ distsq ws0 (o_w o) = 25 /\
    rows_of 2 [[1; 0]; [0; 1]] /\ noise_free ws0 [3; 4] [[1; 0]; [0; 1]] /\
    run [3; 4] [[1; 0]; [0; 1]] o = (o', Ok (y, e, w)) /\ exciting_list 2 2 1 [[1; 0]; [0; 1]].
  Proof.
    assert (Hnew : exists o : obj, new_filter rngR KRLS (kw55 (1 / 2)) = Ok o /\ o_mu o = 1 / 2 /\ o_w o = [0; 0] /\ exists R0, o_ext o = XRLS 1 R0).
    { destruct (new_filter rngR KRLS (kw55 (1 / 2))) as [o|] eqn:Eo; revert Eo; unfold new_filter; cbn; rewrite Reqb_1_0; [|discriminate].
      intros [= <-]. eexists. split; [reflexivity|]. split; [reflexivity|]. split; [reflexivity|]. eexists. reflexivity. }
    destruct Hnew as (o & Ho & Hm & Hw & R0 & HE).
    pose proof (kwE_reachable0 solve KRLS (1 / 2) [0; 0] (Some 1) None o Ho) as Hr. cbn [length] in Hr.
    assert (Hx : rows_of 2 [[1; 0]; [0; 1]]) by (repeat constructor).
    destruct (run_exists solve 2 o [3; 4] [[1; 0]; [0; 1]] Hr Hx eq_refl) as (o' & y & e & w & Er).
    - discriminate.
    - intros ex. unfold soft_exn. rewrite HE, Hm. intros (_ & He). cbn in He. unfold Reqb in He. destruct (Req_EM_T (1 / 2) 0); [lra|discriminate].
    - exists o, o', R0, y, e, w. split; [split; intros ? Hs; discriminate Hs|]. split; [reflexivity|]. split; [exact Ho|]. split; [exact HE|].
      split; [rewrite Hm; lra|]. split; [rewrite Hw; unfold distsq, normsq, ws0; simpl; lra|]. split; [exact Hx|].
      split; [intros [|[|i]] Hi; simpl in *; try lia; unfold ws0; simpl; lra|]. split; [exact Er|].
      split; [lra|]. intros [|j] v Hj Hv; [|simpl in Hj; lia]. destruct v as [|a [|b [|]]]; try discriminate.
      unfold normsq. simpl. lra.
  Qed.
End S.
