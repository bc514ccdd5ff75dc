(** C106: RLS follows a changing system if it forgets, and only then (exact real arithmetic). *)
From Coq Require Import Reals Lra Psatz.
From Verif Require Import Py Num Numpy Filters Registry Spec StructProofs RunProofs Reach RVec RFilter PropsStability Steps PropsAlgebra RMat PropsRLS PropsRLSRate PropsTracking.
Open Scope R_scope.

Lemma abs_dot u v : Rabs (Rdot u v) <= norm u * norm v.
Proof.
  apply Rsqr_incr_0_var; [|apply Rmult_le_pos; apply norm_pos]. rewrite <- Rsqr_abs. unfold Rsqr.
  replace (norm u * norm v * (norm u * norm v)) with ((norm u * norm u) * (norm v * norm v)) by ring. rewrite !norm_sq. apply Cauchy_Schwarz.
Qed.
Lemma geo mu k : 0 < mu < 1 -> sumn k (fun i => mu ^ (k - 1 - i)) <= / (1 - mu).
Proof.
  intros Hm. enough (H : sumn k (fun i => mu ^ (k - 1 - i)) = (1 - mu ^ k) / (1 - mu)).
  { rewrite H. unfold Rdiv. rewrite <- (Rmult_1_l (/ (1 - mu))) at 2. apply Rmult_le_compat_r; [left; apply Rinv_0_lt_compat; lra|].
    pose proof (pow_lt mu k ltac:(lra)). lra. }
  induction k as [|k IH]; [cbn [sumn pow]; field; lra|]. cbn [sumn]. replace (S k - 1 - k)%nat with 0%nat by lia.
  rewrite (sumn_ext k _ (fun i => mu * mu ^ (k - 1 - i))).
  - rewrite sumn_scal, IH. cbn [pow]. field. lra.
  - intros i Hi. replace (S k - 1 - i)%nat with (S (k - 1 - i)) by lia. reflexivity.
Qed.
Lemma sumn_same c (a : R) : sumn c (fun _ => a) = INR c * a.
Proof. induction c as [|c IH]; [cbn; ring|]. cbn [sumn]. rewrite IH, S_INR. ring. Qed.
(** sum of (k - i) mu^(k-1-i) *)
Lemma geo2 mu k : 0 < mu < 1 -> sumn k (fun i => mu ^ (k - 1 - i) * INR (k - i)) <= / (1 - mu) * / (1 - mu).
Proof.
  intros Hm. assert (Hi : 0 < / (1 - mu)) by (apply Rinv_0_lt_compat; lra).
  induction k as [|k IH]; [cbn [sumn]; apply Rmult_le_pos; lra|].
  assert (E : sumn (S k) (fun i => mu ^ (S k - 1 - i) * INR (S k - i)) = mu * sumn k (fun i => mu ^ (k - 1 - i) * INR (k - i)) + (mu * sumn k (fun i => mu ^ (k - 1 - i)) + 1)).
  { cbn [sumn]. replace (S k - 1 - k)%nat with 0%nat by lia. replace (S k - k)%nat with 1%nat by lia. cbn [pow INR].
    rewrite (sumn_ext k _ (fun i => mu * (mu ^ (k - 1 - i) * INR (k - i)) + mu * mu ^ (k - 1 - i))).
    - rewrite sumn_plus, !sumn_scal. ring.
    - intros i Hi'. replace (S k - 1 - i)%nat with (S (k - 1 - i)) by lia. replace (S k - i)%nat with (S (k - i)) by lia. rewrite S_INR. cbn [pow]. ring. }
  rewrite E. pose proof (geo mu k Hm) as G. set (g := / (1 - mu)) in *. assert (Hg : g * (1 - mu) = 1) by (unfold g; apply Rinv_l; lra).
  set (s1 := sumn k _) in *. set (s2 := sumn k (fun i => mu ^ (k - 1 - i))) in *.
  assert (B1 : mu * s1 <= mu * (g * g)) by (apply Rmult_le_compat_l; lra). assert (B2 : mu * s2 <= mu * g) by (apply Rmult_le_compat_l; lra).
  assert (H2 : g * g * (1 - mu) = g) by (rewrite Rmult_assoc, Hg; ring). lra.
Qed.

Section S.
  Variable solve : list rvec -> list rvec -> option (list rvec).
  #[local] Hint Extern 0 (Num R) => exact (RNum solve) : typeclass_instances.
  Notation obj := (obj R).

  (** a run of a new RLS filter *)
  Definition rls_run (n : nat) (eps : R) (o o' : obj) (d : rvec) (x : list rvec) (e : rvec) (w : list rvec) : Prop :=
    exists rng (kw : kwargs R) R0 y, rng_ok rng /\ sane_kw kw /\ kw_n kw = Some (Z.of_nat n) /\ new_filter rng KRLS kw = Ok o /\
      o_ext o = XRLS eps R0 /\ 0 < eps /\ 0 < o_mu o /\ rows_of n x /\ run d x o = (o', Ok (y, e, w)).

  Lemma normal n eps (o o' : obj) d x e w k z : rls_run n eps o o' d x e w -> (k <= length x)%nat -> length z = n ->
    length (wrow w (o_w o') k) = n /\ length (o_w o) = n /\ (forall i, (i < length x)%nat -> length (nth i x []) = n) /\
    sumn k (fun i => o_mu o ^ (k - 1 - i) * (nth i d 0 - Rdot (wrow w (o_w o') k) (nth i x [])) * Rdot z (nth i x [])) =
    o_mu o ^ k * eps * Rdot (vsub (wrow w (o_w o') k) (o_w o)) z.
  Proof.
    intros (rng & kw & R0 & y & Hrng & Hkw & Hn & Hnew & HE & Heps & Hmu & Hx & HR) Hk Lz.
    destruct (C21_least_squares solve rng kw n o o' eps R0 d x y e w Hrng Hkw Hn Hnew HE Heps Hmu Hx HR k Hk) as (Lw & HB).
    pose proof (new_filter_wf rng KRLS kw n o Hrng Hkw Hn Hnew) as (Lo & _ & _).
    assert (Lx : forall i, (i < length x)%nat -> length (nth i x []) = n) by (intros; apply nth_rows; auto).
    split; [exact Lw|]. split; [exact Lo|]. split; [exact Lx|]. set (mu := o_mu o) in *. set (wk := wrow w (o_w o') k) in *.
    set (B := sumn k _). set (C := mu ^ k * eps * _). set (Q := sumn k (fun i => mu ^ (k - 1 - i) * Rdot z (nth i x []) ^ 2) + mu ^ k * eps * normsq z).
    assert (HQ : 0 <= Q).
    { unfold Q. apply Rplus_le_le_0_compat; [apply sumn_nonneg; intros i Hi; apply Rmult_le_pos; [apply pow_le; lra|nra]|].
      apply Rmult_le_pos; [apply Rmult_le_pos; [apply pow_le; lra|lra]|apply normsq_nonneg]. }
    assert (HE2 : forall t, ls_cost mu eps (o_w o) d x k (vadd wk (vsc t z)) = ls_cost mu eps (o_w o) d x k wk - 2 * t * (B - C) + t * t * Q).
    { intros t. unfold ls_cost, B, C, Q.
      assert (E1 : sumn k (fun i => mu ^ (k - 1 - i) * (nth i d 0 - Rdot (vadd wk (vsc t z)) (nth i x [])) ^ 2) =
        sumn k (fun i => mu ^ (k - 1 - i) * (nth i d 0 - Rdot wk (nth i x [])) ^ 2) +
        ((- 2 * t) * sumn k (fun i => mu ^ (k - 1 - i) * (nth i d 0 - Rdot wk (nth i x [])) * Rdot z (nth i x [])) +
         (t * t) * sumn k (fun i => mu ^ (k - 1 - i) * Rdot z (nth i x []) ^ 2))).
      { rewrite <- !sumn_scal, <- !sumn_plus. apply sumn_ext. intros i Hi.
        rewrite Rdot_vadd_l; [|rewrite vsc_length; congruence|rewrite vsc_length, Lx by lia; exact Lz]. rewrite Rdot_vsc_l. ring. }
      rewrite E1. assert (E2 : distsq (vadd wk (vsc t z)) (o_w o) = distsq wk (o_w o) + 2 * t * Rdot (vsub wk (o_w o)) z + t * t * normsq z).
      { unfold distsq. replace (vsub (vadd wk (vsc t z)) (o_w o)) with (vadd (vsub wk (o_w o)) (vsc t z)).
        - rewrite normsq_vadd by (rewrite vsc_length, (vsub_length _ _ n); auto). rewrite Rdot_vsc_r, normsq_vsc. ring.
        - apply nth_ext0; [rewrite !(vadd_length _ _ n), (vsub_length _ _ n); auto; try (rewrite vsc_length; auto); try (apply vadd_length; auto; rewrite vsc_length; auto); apply vsub_length; auto|].
          intros j _. rewrite nth_vadd by (rewrite vsc_length, (vsub_length _ _ n); auto). rewrite !nth_vsub by (try (rewrite (vadd_length _ _ n); auto; rewrite vsc_length; auto); congruence).
          rewrite nth_vadd by (rewrite vsc_length; congruence). ring. }
      rewrite E2. ring. }
    set (t := (B - C) / (Q + 1)). specialize (HE2 t).
    assert (Hle : ls_cost mu eps (o_w o) d x k wk <= ls_cost mu eps (o_w o) d x k (vadd wk (vsc t z))).
    { destruct (list_eq_dec Req_EM_T (vadd wk (vsc t z)) wk) as [->|Hne]; [lra|]. left. apply HB; [apply vadd_length; auto; rewrite vsc_length; exact Lz|exact Hne]. }
    rewrite HE2 in Hle. assert (Ht : t * (Q + 1) = B - C) by (unfold t; field; lra). rewrite <- Ht in Hle.
    assert (Hz : 0 <= t * t * (- Q - 2)) by lra.
    assert (Ht2 : t * t = 0).
    { assert (0 <= t * t) by nra. assert (0 <= t * t * Q) by (apply Rmult_le_pos; lra). nra. }
    assert (t = 0) by nra. rewrite H, Rmult_0_l in Ht. lra.
  Qed.

  (** *** C106: the distance to any system *)
  (** u is any weight vector; the samples that it does not explain count with the weight mu^(their age) *)
  Theorem C106_distance : forall n eps (o o' : obj) d x e w u alpha, rls_run n eps o o' d x e w -> length u = n ->
    forall k, (k <= length x)%nat -> (forall v, length v = n -> alpha * normsq v <= excitation (o_mu o) x k v) ->
    alpha * dist (wrow w (o_w o') k) u <=
      o_mu o ^ k * eps * dist (o_w o) u + sumn k (fun i => o_mu o ^ (k - 1 - i) * (Rabs (nth i d 0 - Rdot u (nth i x [])) * norm (nth i x []))).
  Proof.
    intros n eps o o' d x e w u alpha HR Lu k Hk Hex.
    assert (Hmu : 0 < o_mu o /\ 0 < eps) by (destruct HR as (rng & kw & R0 & y & H); tauto). destruct Hmu as (Hmu & Heps).
    pose proof (normal n eps o o' d x e w k u HR Hk Lu) as (Lw & Lo & Lx & _). set (wk := wrow w (o_w o') k) in *. set (v := vsub wk u).
    assert (Lv : length v = n) by (apply vsub_length; auto).
    destruct (normal n eps o o' d x e w k v HR Hk Lv) as (_ & _ & _ & HN). fold wk in HN. set (mu := o_mu o) in *.
    assert (HM : 0 <= mu ^ k * eps) by (apply Rmult_le_pos; [apply pow_le|]; lra).
    (* excitation of v *)
    assert (H1 : excitation mu x k v + mu ^ k * eps * normsq v =
      sumn k (fun i => mu ^ (k - 1 - i) * (nth i d 0 - Rdot u (nth i x [])) * Rdot v (nth i x [])) + mu ^ k * eps * Rdot (vsub (o_w o) u) v).
    { assert (E1 : sumn k (fun i => mu ^ (k - 1 - i) * (nth i d 0 - Rdot wk (nth i x [])) * Rdot v (nth i x [])) =
        sumn k (fun i => mu ^ (k - 1 - i) * (nth i d 0 - Rdot u (nth i x [])) * Rdot v (nth i x [])) - excitation mu x k v).
      { unfold excitation. rewrite <- sumn_minus. apply sumn_ext. intros i Hi. assert (Ev : Rdot v (nth i x []) = Rdot wk (nth i x []) - Rdot u (nth i x [])).
        { unfold v. apply Rdot_vsub_l; [congruence|rewrite Lx by lia; exact Lu]. } rewrite Ev. ring. }
      rewrite E1 in HN.
      assert (E2 : Rdot (vsub wk (o_w o)) v = normsq v - Rdot (vsub (o_w o) u) v).
      { unfold normsq. unfold v at 2. rewrite (Rdot_vsub_l v wk (o_w o)), (Rdot_vsub_l v wk u), (Rdot_vsub_l v (o_w o) u) by congruence. ring. }
      rewrite E2 in HN. rewrite Rmult_minus_distr_l in HN. lra. }
    set (r := fun i => Rabs (nth i d 0 - Rdot u (nth i x [])) * norm (nth i x [])).
    assert (H2 : sumn k (fun i => mu ^ (k - 1 - i) * (nth i d 0 - Rdot u (nth i x [])) * Rdot v (nth i x [])) <= norm v * sumn k (fun i => mu ^ (k - 1 - i) * r i)).
    { rewrite <- sumn_scal. apply sumn_le. intros i Hi. unfold r. pose proof (abs_dot v (nth i x [])) as HD. pose proof (pow_lt mu (k - 1 - i) Hmu) as Hp.
      set (a := nth i d 0 - Rdot u (nth i x [])). set (b := Rdot v (nth i x [])) in *.
      replace (norm v * (mu ^ (k - 1 - i) * (Rabs a * norm (nth i x [])))) with (mu ^ (k - 1 - i) * (Rabs a * (norm v * norm (nth i x [])))) by ring.
      rewrite Rmult_assoc. apply Rmult_le_compat_l; [lra|]. apply Rle_trans with (Rabs a * Rabs b); [rewrite <- Rabs_mult; apply Rle_abs|].
      apply Rmult_le_compat_l; [apply Rabs_pos|exact HD]. }
    assert (H3 : Rdot (vsub (o_w o) u) v <= norm v * dist (o_w o) u).
    { rewrite dist_norm. pose proof (abs_dot (vsub (o_w o) u) v). pose proof (Rle_abs (Rdot (vsub (o_w o) u) v)). lra. }
    pose proof (Hex v Lv) as H4. pose proof (normsq_nonneg v) as H5. pose proof (norm_pos v) as Pv. rewrite dist_norm. fold v.
    assert (H6 : mu ^ k * eps * Rdot (vsub (o_w o) u) v <= mu ^ k * eps * (norm v * dist (o_w o) u)) by (apply Rmult_le_compat_l; assumption).
    assert (H7 : 0 <= mu ^ k * eps * normsq v) by (apply Rmult_le_pos; assumption).
    set (Sr := sumn k (fun i => mu ^ (k - 1 - i) * r i)) in *.
    assert (H8 : norm v * (alpha * norm v) <= norm v * (mu ^ k * eps * dist (o_w o) u + Sr)).
    { replace (norm v * (alpha * norm v)) with (alpha * (norm v * norm v)) by ring. rewrite norm_sq. lra. }
    change (alpha * norm v <= mu ^ k * eps * dist (o_w o) u + Sr).
    destruct (Req_dec (norm v) 0) as [E0|E0].
    - rewrite E0, Rmult_0_r. apply Rplus_le_le_0_compat; [apply Rmult_le_pos; [exact HM|apply sqrt_pos]|].
      apply sumn_nonneg. intros i Hi. apply Rmult_le_pos; [apply pow_le; lra|]. apply Rmult_le_pos; [apply Rabs_pos|apply norm_pos].
    - apply (Rmult_le_reg_l (norm v)); [lra|exact H8].
  Qed.

  Lemma window n m alpha mu x k v : 0 < mu <= 1 -> exciting_list n m alpha x -> (m <= k <= length x)%nat -> length v = n ->
    mu ^ m * alpha * normsq v <= excitation mu x k v.
  Proof.
    intros Hmu (Ha & Hex) Hk Hv. unfold excitation. replace k with ((k - m) + m)%nat at 1 by lia. rewrite sumn_split.
    assert (H0 : 0 <= sumn (k - m) (fun i => mu ^ (k - 1 - i) * Rdot v (nth i x []) ^ 2)).
    { apply sumn_nonneg. intros i Hi. apply Rmult_le_pos; [apply pow_le; lra|nra]. }
    assert (H1 : mu ^ m * sumn m (fun i => Rdot v (nth (k - m + i) x []) ^ 2) <= sumn m (fun i => mu ^ (k - 1 - (k - m + i)) * Rdot v (nth (k - m + i) x []) ^ 2)).
    { rewrite <- sumn_scal. apply sumn_le. intros i Hi. apply Rmult_le_compat_r; [nra|].
      replace m with ((k - 1 - (k - m + i)) + S i)%nat at 1 by lia. rewrite pow_add. rewrite <- (Rmult_1_r (mu ^ (k - 1 - (k - m + i)))) at 2.
      apply Rmult_le_compat_l; [apply pow_le; lra|]. rewrite <- (pow1 (S i)). apply pow_incr. lra. }
    specialize (Hex (k - m)%nat v ltac:(lia) Hv).
    assert (H2 : mu ^ m * (alpha * normsq v) <= mu ^ m * sumn m (fun i => Rdot v (nth (k - m + i) x []) ^ 2)) by (apply Rmult_le_compat_l; [apply pow_le; lra|exact Hex]).
    lra.
  Qed.
  Lemma drift_sum n (Sys : nat -> rvec) del : (forall i, length (Sys i) = n) -> (forall i, drift_at Sys i <= del) -> forall j i, dist (Sys i) (Sys (i + j)%nat) <= INR j * del.
  Proof.
    intros HL HD. induction j as [|j IH]; intros i.
    - rewrite Nat.add_0_r. unfold dist, distsq. replace (normsq (vsub (Sys i) (Sys i))) with 0; [rewrite sqrt_0; cbn; lra|].
      unfold normsq. rewrite Rdot_vsub_l; [ring|reflexivity|]. rewrite (vsub_length _ _ n); auto.
    - rewrite S_INR. replace (i + S j)%nat with (S (i + j)) by lia.
      pose proof (dist_triangle (Sys i) (Sys (i + j)%nat) (Sys (S (i + j))) n (HL _) (HL _) (HL _)) as HT. specialize (IH i). specialize (HD (i + j)%nat). unfold drift_at in HD. lra.
  Qed.

  (** *** C106: a drifting system *)
  (** inputs of length at most X, disturbances at most V, a system that moves by at most del per sample *)
  Theorem C106_tracking : forall n eps (o o' : obj) d x e w (Sys : nat -> rvec) m alpha X V del, rls_run n eps o o' d x e w -> o_mu o < 1 ->
    exciting_list n m alpha x -> (forall i, (i < length x)%nat -> norm (nth i x []) <= X) ->
    (forall i, length (Sys i) = n) -> (forall i, (i < length x)%nat -> Rabs (disturbance Sys x d i) <= V) -> (forall i, drift_at Sys i <= del) ->
    forall k, (m <= k <= length x)%nat ->
      dist (wrow w (o_w o') k) (Sys k) <= / (o_mu o ^ m * alpha) *
        (o_mu o ^ k * eps * (dist (o_w o) (Sys 0%nat) + INR k * del) + X * V / (1 - o_mu o) + X * X * del / (1 - o_mu o) ^ 2).
  Proof.
    intros n eps o o' d x e w Sys m alpha X V del HR Hm1 Hex HX HS HV HD k Hk.
    assert (Hmu : 0 < o_mu o /\ 0 < eps) by (destruct HR as (rng & kw & R0 & y & H); tauto). destruct Hmu as (Hmu & Heps).
    pose proof (normal n eps o o' d x e w k (Sys k) HR ltac:(lia) (HS k)) as (_ & Lo & Lx & _).
    pose proof (C106_distance n eps o o' d x e w (Sys k) (o_mu o ^ m * alpha) HR (HS k) k ltac:(lia)) as HB.
    specialize (HB ltac:(intros v Hv; apply (window n m alpha (o_mu o) x k v); [lra|exact Hex|exact Hk|exact Hv])).
    set (mu := o_mu o) in *. set (a := mu ^ m * alpha) in *. assert (Ha : 0 < a) by (unfold a; apply Rmult_lt_0_compat; [apply pow_lt; exact Hmu|apply Hex]).
    destruct (Nat.eq_dec (length x) 0) as [E0|E0].
    { (* no samples *) assert (x = []) by (destruct x; [reflexivity|discriminate E0]). subst x. exfalso.
      destruct HR as (rng & kw & R0 & y & _ & _ & _ & _ & _ & _ & _ & _ & HR). unfold run in HR. destruct d; cbn in HR; discriminate HR. }
    assert (HX0 : 0 <= X) by (eapply Rle_trans; [apply norm_pos|apply (HX 0%nat); lia]).
    assert (HV0 : 0 <= V) by (eapply Rle_trans; [apply Rabs_pos|apply (HV 0%nat); lia]).
    assert (HD0 : 0 <= del) by (eapply Rle_trans; [apply sqrt_pos|apply (HD 0%nat)]).
    assert (H1 : dist (o_w o) (Sys k) <= dist (o_w o) (Sys 0%nat) + INR k * del).
    { pose proof (dist_triangle (o_w o) (Sys 0%nat) (Sys k) n Lo (HS _) (HS _)). pose proof (drift_sum n Sys del HS HD k 0%nat) as Hd. cbn [Nat.add] in Hd. lra. }
    assert (H2 : sumn k (fun i => mu ^ (k - 1 - i) * (Rabs (nth i d 0 - Rdot (Sys k) (nth i x [])) * norm (nth i x []))) <=
      X * V * sumn k (fun i => mu ^ (k - 1 - i)) + X * X * del * sumn k (fun i => mu ^ (k - 1 - i) * INR (k - i))).
    { rewrite <- !sumn_scal, <- sumn_plus. apply sumn_le. intros i Hi. pose proof (pow_lt mu (k - 1 - i) Hmu) as Hp. specialize (HX i ltac:(lia)). specialize (HV i ltac:(lia)).
      assert (Hr : Rabs (nth i d 0 - Rdot (Sys k) (nth i x [])) <= V + INR (k - i) * del * X).
      { replace (nth i d 0 - Rdot (Sys k) (nth i x [])) with (disturbance Sys x d i + Rdot (vsub (Sys i) (Sys k)) (nth i x [])).
        - eapply Rle_trans; [apply Rabs_triang|]. apply Rplus_le_compat; [exact HV|]. eapply Rle_trans; [apply abs_dot|].
          apply Rmult_le_compat; try apply norm_pos; [|exact HX]. rewrite <- dist_norm. replace k with (i + (k - i))%nat at 1 by lia. apply (drift_sum n); assumption.
        - unfold disturbance. rewrite Rdot_vsub_l; [ring|rewrite !HS; reflexivity|rewrite Lx by lia; apply HS]. }
      assert (Hpos : 0 <= V + INR (k - i) * del * X) by (eapply Rle_trans; [apply Rabs_pos|exact Hr]).
      replace (X * V * mu ^ (k - 1 - i) + X * X * del * (mu ^ (k - 1 - i) * INR (k - i))) with (mu ^ (k - 1 - i) * ((V + INR (k - i) * del * X) * X)) by ring.
      apply Rmult_le_compat_l; [lra|]. apply Rmult_le_compat; [apply Rabs_pos|apply norm_pos|exact Hr|exact HX]. }
    pose proof (geo mu k ltac:(lra)) as G1. pose proof (geo2 mu k ltac:(lra)) as G2. set (g := / (1 - mu)) in *.
    assert (H3 : X * V * sumn k (fun i => mu ^ (k - 1 - i)) <= X * V * g) by (apply Rmult_le_compat_l; [apply Rmult_le_pos; assumption|exact G1]).
    assert (H4 : X * X * del * sumn k (fun i => mu ^ (k - 1 - i) * INR (k - i)) <= X * X * del * (g * g)) by (apply Rmult_le_compat_l; [repeat apply Rmult_le_pos; assumption|exact G2]).
    assert (H5 : mu ^ k * eps * dist (o_w o) (Sys k) <= mu ^ k * eps * (dist (o_w o) (Sys 0%nat) + INR k * del)).
    { apply Rmult_le_compat_l; [apply Rmult_le_pos; [apply pow_le|]; lra|exact H1]. }
    replace (X * X * del / (1 - mu) ^ 2) with (X * X * del * (g * g)) by (unfold g; field; lra). unfold Rdiv. fold g.
    apply (Rmult_le_reg_l a); [exact Ha|]. rewrite <- Rmult_assoc, Rinv_r, Rmult_1_l by lra. lra.
  Qed.

  (** *** C106: a sudden change *)
  (** the system is a before sample q and b from sample q on *)
  Definition switch (a b : rvec) (q : nat) (i : nat) : rvec := if (i <? q)%nat then a else b.
  Theorem C106_switch : forall n eps (o o' : obj) d x e w a b q m alpha X, rls_run n eps o o' d x e w -> o_mu o < 1 ->
    exciting_list n m alpha x -> (forall i, (i < length x)%nat -> norm (nth i x []) <= X) -> length a = n -> length b = n ->
    (forall i, (i < length x)%nat -> disturbance (switch a b q) x d i = 0) ->
    forall k, (m <= q + k <= length x)%nat ->
      dist (wrow w (o_w o') (q + k)) b <= o_mu o ^ k * / (o_mu o ^ m * alpha) * (o_mu o ^ q * eps * dist (o_w o) b + X * X * dist a b / (1 - o_mu o)).
  Proof.
    intros n eps o o' d x e w a b q m alpha X HR Hm1 Hex HX La Lb HV k Hk.
    assert (Hmu : 0 < o_mu o /\ 0 < eps) by (destruct HR as (rng & kw & R0 & y & H); tauto). destruct Hmu as (Hmu & Heps).
    pose proof (normal n eps o o' d x e w (q + k) b HR ltac:(lia) Lb) as (_ & Lo & Lx & _).
    pose proof (C106_distance n eps o o' d x e w b (o_mu o ^ m * alpha) HR Lb (q + k) ltac:(lia)) as HB.
    specialize (HB ltac:(intros v Hv; apply (window n m alpha (o_mu o) x (q + k) v); [lra|exact Hex|exact Hk|exact Hv])).
    set (mu := o_mu o) in *. set (al := mu ^ m * alpha) in *. assert (Ha : 0 < al) by (unfold al; apply Rmult_lt_0_compat; [apply pow_lt; exact Hmu|apply Hex]).
    assert (H2 : sumn (q + k) (fun i => mu ^ (q + k - 1 - i) * (Rabs (nth i d 0 - Rdot b (nth i x [])) * norm (nth i x []))) <= mu ^ k * (X * X * dist a b * / (1 - mu))).
    { rewrite sumn_split.
      assert (E0 : sumn k (fun i => mu ^ (q + k - 1 - (q + i)) * (Rabs (nth (q + i) d 0 - Rdot b (nth (q + i) x [])) * norm (nth (q + i) x []))) = 0).
      { rewrite (sumn_ext k _ (fun _ => 0)); [apply sumn_0|]. intros i Hi. specialize (HV (q + i)%nat ltac:(lia)). unfold disturbance, switch in HV.
        replace (q + i <? q)%nat with false in HV by (symmetry; apply Nat.ltb_ge; lia). rewrite HV, Rabs_R0. ring. }
      rewrite E0, Rplus_0_r.
      apply Rle_trans with (mu ^ k * (X * X * dist a b) * sumn q (fun i => mu ^ (q - 1 - i))).
      - rewrite <- sumn_scal. apply sumn_le. intros i Hi. specialize (HV i ltac:(lia)). specialize (HX i ltac:(lia)). unfold disturbance, switch in HV.
        replace (i <? q)%nat with true in HV by (symmetry; apply Nat.ltb_lt; lia).
        replace (q + k - 1 - i)%nat with (k + (q - 1 - i))%nat by lia. rewrite pow_add.
        assert (Hr : Rabs (nth i d 0 - Rdot b (nth i x [])) <= dist a b * norm (nth i x [])).
        { replace (nth i d 0 - Rdot b (nth i x [])) with (Rdot (vsub a b) (nth i x [])); [rewrite dist_norm; apply abs_dot|].
          rewrite Rdot_vsub_l; [lra|congruence|rewrite Lx by lia; exact Lb]. }
        pose proof (pow_lt mu k Hmu) as P1. pose proof (pow_lt mu (q - 1 - i) Hmu) as P2. pose proof (norm_pos (nth i x [])) as P3. assert (P4 : 0 <= dist a b) by apply sqrt_pos.
        replace (mu ^ k * (X * X * dist a b) * mu ^ (q - 1 - i)) with (mu ^ k * mu ^ (q - 1 - i) * (dist a b * X * X)) by ring.
        apply Rmult_le_compat_l; [apply Rmult_le_pos; lra|]. apply Rmult_le_compat; [apply Rabs_pos|exact P3| |exact HX].
        eapply Rle_trans; [exact Hr|]. apply Rmult_le_compat_l; assumption.
      - replace (mu ^ k * (X * X * dist a b * / (1 - mu))) with (mu ^ k * (X * X * dist a b) * / (1 - mu)) by ring.
        apply Rmult_le_compat_l; [|apply geo; lra]. apply Rmult_le_pos; [apply pow_le; lra|]. apply Rmult_le_pos; [nra|apply sqrt_pos]. }
    rewrite pow_add in HB. apply (Rmult_le_reg_l al); [exact Ha|].
    replace (al * (mu ^ k * / al * (mu ^ q * eps * dist (o_w o) b + X * X * dist a b / (1 - mu)))) with (mu ^ k * (mu ^ q * eps * dist (o_w o) b + X * X * dist a b / (1 - mu))) by (field; lra).
    unfold Rdiv. lra.
  Qed.

  (** *** C106: without forgetting *)
  Theorem C106_no_forgetting : forall n eps (o o' : obj) d x e w a b q X lam, rls_run n eps o o' d x e w -> o_mu o = 1 ->
    (forall i, (i < length x)%nat -> norm (nth i x []) <= X) -> length a = n -> length b = n ->
    (forall i, (i < length x)%nat -> disturbance (switch a b q) x d i = 0) ->
    lam * normsq (vsub a b) <= sumn q (fun i => Rdot (vsub a b) (nth i x []) ^ 2) ->
    forall k, (q + k <= length x)%nat ->
      lam * dist a b - eps * dist (o_w o) b <= (eps + INR (q + k) * (X * X)) * dist (wrow w (o_w o') (q + k)) b.
  Proof.
    intros n eps o o' d x e w a b q X lam HR Hm1 HX La Lb HV Hlam k Hk.
    assert (Heps : 0 < eps) by (destruct HR as (rng & kw & R0 & y & H); tauto).
    set (g := vsub a b) in *. assert (Lg : length g = n) by (apply vsub_length; auto).
    destruct (normal n eps o o' d x e w (q + k) g HR Hk Lg) as (Lw & Lo & Lx & HN). set (wk := wrow w (o_w o') (q + k)) in *. rewrite Hm1 in HN.
    rewrite (sumn_ext (q + k) _ (fun i => (nth i d 0 - Rdot b (nth i x [])) * Rdot g (nth i x []) - Rdot (vsub wk b) (nth i x []) * Rdot g (nth i x []))) in HN.
    2: { intros i Hi. rewrite pow1, Rdot_vsub_l; [ring|congruence|rewrite Lx by lia; exact Lb]. }
    rewrite sumn_minus, sumn_split, pow1, Rmult_1_l in HN.
    assert (E1 : sumn q (fun i => (nth i d 0 - Rdot b (nth i x [])) * Rdot g (nth i x [])) = sumn q (fun i => Rdot g (nth i x []) ^ 2)).
    { apply sumn_ext. intros i Hi. specialize (HV i ltac:(lia)). unfold disturbance, switch in HV. replace (i <? q)%nat with true in HV by (symmetry; apply Nat.ltb_lt; lia).
      replace (nth i d 0 - Rdot b (nth i x [])) with (Rdot g (nth i x [])); [ring|]. unfold g. rewrite Rdot_vsub_l; [lra|congruence|rewrite Lx by lia; exact Lb]. }
    assert (E2 : sumn k (fun i => (nth (q + i) d 0 - Rdot b (nth (q + i) x [])) * Rdot g (nth (q + i) x [])) = 0).
    { rewrite (sumn_ext k _ (fun _ => 0)); [apply sumn_0|]. intros i Hi. specialize (HV (q + i)%nat ltac:(lia)). unfold disturbance, switch in HV.
      replace (q + i <? q)%nat with false in HV by (symmetry; apply Nat.ltb_ge; lia). rewrite HV. ring. }
    rewrite E1, E2, Rplus_0_r in HN.
    assert (HX0 : 0 <= X \/ (q + k)%nat = 0%nat).
    { destruct (Nat.eq_dec (q + k) 0) as [|Hn0]; [right; assumption|left]. eapply Rle_trans; [apply norm_pos|apply (HX 0%nat); lia]. }
    set (v := vsub wk b) in *. assert (Lv : length v = n) by (apply vsub_length; auto).
    assert (H3 : sumn (q + k) (fun i => Rdot v (nth i x []) * Rdot g (nth i x [])) <= INR (q + k) * (X * X) * (norm v * norm g)).
    { apply Rle_trans with (sumn (q + k) (fun _ => X * X * (norm v * norm g))).
      - apply sumn_le. intros i Hi. specialize (HX i ltac:(lia)). pose proof (norm_pos (nth i x [])) as P. pose proof (norm_pos v) as Pv. pose proof (norm_pos g) as Pg.
        apply Rle_trans with (Rabs (Rdot v (nth i x [])) * Rabs (Rdot g (nth i x []))); [rewrite <- Rabs_mult; apply Rle_abs|].
        replace (X * X * (norm v * norm g)) with ((norm v * X) * (norm g * X)) by ring.
        apply Rmult_le_compat; try apply Rabs_pos; (eapply Rle_trans; [apply abs_dot|apply Rmult_le_compat_l; assumption]).
      - rewrite sumn_same. right. ring. }
    assert (E3 : Rdot (vsub wk (o_w o)) g = Rdot v g - Rdot (vsub (o_w o) b) g).
    { unfold v. rewrite !(Rdot_vsub_l g) by congruence. ring. }
    rewrite E3 in HN.
    pose proof (abs_dot v g) as C1. pose proof (abs_dot (vsub (o_w o) b) g) as C2.
    assert (H4 : Rdot v g <= norm v * norm g) by (eapply Rle_trans; [apply Rle_abs|apply abs_dot]).
    assert (H5 : - (norm (vsub (o_w o) b) * norm g) <= Rdot (vsub (o_w o) b) g).
    { pose proof (Rle_abs (- Rdot (vsub (o_w o) b) g)) as H. rewrite Rabs_Ropp in H. lra. }
    rewrite !dist_norm. fold g. fold v. set (dw := norm (vsub (o_w o) b)) in *. pose proof (norm_pos g) as Pg. pose proof (norm_pos v) as Pv. pose proof (norm_pos (vsub (o_w o) b)) as Pw. fold dw in Pw.
    assert (HXX : 0 <= INR (q + k) * (X * X)).
    { apply Rmult_le_pos; [apply pos_INR|nra]. }
    assert (H6 : (lam * norm g - eps * dw) * norm g <= (eps + INR (q + k) * (X * X)) * norm v * norm g).
    { assert (M1 : eps * Rdot v g <= eps * (norm v * norm g)) by (apply Rmult_le_compat_l; lra).
      assert (M2 : eps * (- (dw * norm g)) <= eps * Rdot (vsub (o_w o) b) g) by (apply Rmult_le_compat_l; lra).
      assert (M3 : lam * norm g * norm g = lam * normsq g) by (rewrite Rmult_assoc, norm_sq; reflexivity). lra. }
    destruct (Req_dec (norm g) 0) as [E0|E0].
    - rewrite E0, Rmult_0_r. assert (0 <= eps * dw) by (apply Rmult_le_pos; lra). assert (0 <= (eps + INR (q + k) * (X * X)) * norm v) by (apply Rmult_le_pos; lra). lra.
    - apply (Rmult_le_reg_r (norm g)); [lra|exact H6].
  Qed.

  (** a steady drift: the lag grows without bound *)
  Theorem C106_lag : forall eps (o o' : obj) d e w N del, rls_run 1 eps o o' d (repeat [1] N) e w -> o_mu o = 1 ->
    (forall i, (i < N)%nat -> nth i d 0 = INR i * del) ->
    forall k, (k <= N)%nat ->
      (eps + INR k) * (INR k * del - nth 0 (wrow w (o_w o') k) 0) = eps * (INR k * del - nth 0 (o_w o) 0) + del * INR k * (INR k + 1) / 2 /\
      (0 < del -> nth 0 (o_w o) 0 <= 0 -> INR k * del / 2 <= INR k * del - nth 0 (wrow w (o_w o') k) 0).
  Proof.
    intros eps o o' d e w N del HR Hm1 Hd k Hk. assert (Heps : 0 < eps) by (destruct HR as (rng & kw & R0 & y & H); tauto).
    destruct (normal 1 eps o o' d (repeat [1] N) e w k [1] HR ltac:(rewrite repeat_length; exact Hk) eq_refl) as (Lw & Lo & _ & HN). rewrite Hm1 in HN.
    destruct (wrow w (o_w o') k) as [|wk [|]]; try discriminate Lw. destruct (o_w o) as [|w0 [|]]; try discriminate Lo. cbn [nth].
    rewrite (sumn_ext k _ (fun i => INR i * del - wk)) in HN.
    2: { intros i Hi. rewrite pow1, (Hd i) by lia. replace (nth i (repeat [1] N) []) with [1]; [cbn [Rdot]; ring|].
         symmetry. apply (repeat_spec N). apply nth_In. rewrite repeat_length. lia. }
    rewrite pow1 in HN. cbn [vsub map2 Rdot] in HN. rewrite sumn_minus, sumn_same in HN.
    assert (HG : sumn k (fun i => INR i * del) = del * (INR k * (INR k - 1) / 2)).
    { clear. induction k as [|k IH]; [cbn; field|]. cbn [sumn]. rewrite IH, S_INR. field. }
    rewrite HG in HN.
    assert (HE : (eps + INR k) * (INR k * del - wk) = eps * (INR k * del - w0) + del * INR k * (INR k + 1) / 2) by lra.
    split; [exact HE|]. intros Hdel Hw0. pose proof (pos_INR k) as Pk. apply (Rmult_le_reg_l (eps + INR k)); [lra|]. rewrite HE.
    assert (P1 : 0 <= del * INR k) by (apply Rmult_le_pos; lra). assert (P2 : 0 <= eps * (del * INR k)) by (apply Rmult_le_pos; lra).
    assert (P3 : 0 <= eps * - w0) by (apply Rmult_le_pos; lra).
    replace ((eps + INR k) * (INR k * del / 2)) with (eps * (del * INR k) / 2 + del * INR k * INR k / 2) by field.
    replace (eps * (INR k * del - w0) + del * INR k * (INR k + 1) / 2) with (eps * (del * INR k) + eps * - w0 + del * INR k * INR k / 2 + del * INR k / 2) by field. lra.
  Qed.

  (** *** hypotheses *)
  Definition kwt (mu : R) : kwargs R := mkKw (Some 1%Z) (Some mu) (Some (WVec [0])) (Some 1) None None None None None None None false.
  Lemma new_t mu : mu <> 0 -> exists (o : obj) R0, new_filter rngR KRLS (kwt mu) = Ok o /\ o_mu o = mu /\ o_w o = [0] /\ o_ext o = XRLS 1 R0.
  Proof.
    intros _. destruct (new_filter rngR KRLS (kwt mu)) as [o|] eqn:Eo; revert Eo; unfold new_filter; cbn; rewrite Reqb_1_0; [|discriminate].
    intros [= <-]. do 2 eexists. split; [reflexivity|]. split; [reflexivity|]. split; reflexivity.
  Qed.
  Lemma run_t mu (d : rvec) N : 0 < mu -> length d = N -> (0 < N)%nat -> exists (o o' : obj) e w, rls_run 1 1 o o' d (repeat [1] N) e w /\ o_mu o = mu /\ o_w o = [0].
  Proof.
    intros Hmu Ld HN. destruct (new_t mu ltac:(lra)) as (o & R0 & Ho & Hm & Hw & HE).
    assert (Hkw : sane_kw (kwt mu)) by (split; intros ? H; discriminate H).
    assert (Hr : reachable 1 o) by (apply (reach_new 1 rngR KRLS (kwt mu)); [apply rngR_ok|exact Hkw|reflexivity|exact Ho]).
    assert (Hx : rows_of 1 (repeat [1] N)) by (apply Forall_forall; intros v Hv; apply repeat_spec in Hv; subst v; reflexivity).
    destruct (run_exists solve 1 o d (repeat [1] N) Hr Hx) as (o' & y & e & w & E).
    - rewrite repeat_length. exact Ld.
    - destruct N; [lia|discriminate].
    - intros ex. unfold soft_exn. rewrite HE, Hm. intros (_ & He). cbn in He. unfold Reqb in He. destruct (Req_EM_T mu 0); [lra|discriminate].
    - exists o, o', e, w. split; [|split; [exact Hm|exact Hw]]. exists rngR, (kwt mu), R0, y. split; [apply rngR_ok|]. split; [exact Hkw|]. split; [reflexivity|].
      split; [exact Ho|]. split; [exact HE|]. split; [lra|]. split; [lra|]. split; [exact Hx|exact E].
  Qed.
  Example C106_hypotheses :
    (exists (o o' : obj) e w, rls_run 1 1 o o' [0; 1; 2; 3] (repeat [1] 4) e w /\ o_mu o < 1 /\ exciting_list 1 1 1 (repeat [1] 4) /\
       (forall i, (i < 4)%nat -> norm (nth i (repeat [1] 4) []) <= 1) /\
       (forall i, (i < 4)%nat -> Rabs (disturbance (fun k => [INR k]) (repeat [1] 4) [0; 1; 2; 3] i) <= 0) /\ (forall i, drift_at (fun k => [INR k]) i <= 1)) /\
    (exists (o o' : obj) e w, rls_run 1 1 o o' [5; 5; 7; 7] (repeat [1] 4) e w /\ o_mu o < 1 /\
       (forall i, (i < 4)%nat -> disturbance (switch [5] [7] 2) (repeat [1] 4) [5; 5; 7; 7] i = 0)) /\
    (exists (o o' : obj) e w, rls_run 1 1 o o' [5; 5; 7; 7] (repeat [1] 4) e w /\ o_mu o = 1 /\
       2 * normsq (vsub [5] [7]) <= sumn 2 (fun i => Rdot (vsub [5] [7]) (nth i (repeat [1] 4) []) ^ 2)) /\
    (exists (o o' : obj) e w, rls_run 1 1 o o' [0; 1; 2; 3] (repeat [1] 4) e w /\ o_mu o = 1 /\
       (forall i, (i < 4)%nat -> nth i [0; 1; 2; 3] 0 = INR i * 1) /\ nth 0 (o_w o) 0 <= 0).
  Proof.
    assert (H1 : norm [1] <= 1) by (unfold norm, normsq; cbn [Rdot]; replace (1 * 1 + 0) with 1 by ring; rewrite sqrt_1; lra).
    split; [|split; [|split]].
    - destruct (run_t (1 / 2) [0; 1; 2; 3] 4 ltac:(lra) eq_refl ltac:(lia)) as (o & o' & e & w & HR & Hm & _). exists o, o', e, w. split; [exact HR|]. split; [lra|].
      split; [split; [lra|]; intros j v Hj Hv; destruct v as [|a [|]]; try discriminate Hv; cbn [sumn]; replace (nth (j + 0) (repeat [1] 4) []) with [1];
        [cbn; unfold normsq; cbn; lra|symmetry; apply (repeat_spec 4); apply nth_In; rewrite repeat_length in *; lia]|].
      split; [intros i Hi; replace (nth i (repeat [1] 4) []) with [1]; [exact H1|symmetry; apply (repeat_spec 4); apply nth_In; rewrite repeat_length; exact Hi]|].
      split.
      + intros i Hi. unfold disturbance. destruct i as [|[|[|[|]]]]; try lia; cbn [nth repeat Rdot INR]; (match goal with |- Rabs ?t <= 0 => replace t with 0 by ring end; rewrite Rabs_R0; lra).
      + intros i. unfold drift_at, dist, distsq, normsq. rewrite S_INR. cbn [vsub map2 Rdot]. replace ((INR i - (INR i + 1)) * (INR i - (INR i + 1)) + 0) with 1 by ring. rewrite sqrt_1. lra.
    - destruct (run_t (1 / 2) [5; 5; 7; 7] 4 ltac:(lra) eq_refl ltac:(lia)) as (o & o' & e & w & HR & Hm & _). exists o, o', e, w. split; [exact HR|]. split; [lra|].
      intros i Hi. unfold disturbance, switch. destruct i as [|[|[|[|]]]]; try lia; cbn; lra.
    - destruct (run_t 1 [5; 5; 7; 7] 4 ltac:(lra) eq_refl ltac:(lia)) as (o & o' & e & w & HR & Hm & _). exists o, o', e, w. split; [exact HR|]. split; [lra|].
      unfold normsq. cbn. lra.
    - destruct (run_t 1 [0; 1; 2; 3] 4 ltac:(lra) eq_refl ltac:(lia)) as (o & o' & e & w & HR & Hm & Hw). exists o, o', e, w. split; [exact HR|]. split; [lra|].
      split; [intros i Hi; destruct i as [|[|[|[|]]]]; try lia; cbn [nth INR]; lra|]. rewrite Hw. cbn. lra.
  Qed.
End S.
