(** C108: the affine projection filter under disturbances and drift (exact real arithmetic, a correct linear solver). *)
From Coq Require Import Reals Lra Psatz.
From Verif Require Import Py Num Numpy Filters Registry Spec StructProofs RunProofs Reach RVec RFilter Steps RMat
  PropsStability PropsAlgebra PropsAPMem PropsAP PropsConverge PropsAPConverge PropsTracking PropsRLSRate.
Open Scope R_scope.

Section S.
  Variable solve : list rvec -> list rvec -> option (list rvec).
  #[local] Hint Extern 0 (Num R) => exact (RNum solve) : typeclass_instances.
  Notation obj := (obj R).

  Lemma vsub_zero_r u k : length u = k -> vsub u (repeat 0 k) = u.
  Proof. intros <-. unfold vsub. induction u as [|a u IH]; cbn [length repeat map2]; [reflexivity|]. rewrite IH, Rminus_0_r. reflexivity. Qed.
  Lemma mv_zero r c (A : rmat) : shape r c A -> mv A (repeat 0 c) = repeat 0 r.
  Proof.
    intros (<- & HA). unfold mv. clear HA. induction A as [|a A IH]; [reflexivity|]. cbn [map length repeat]. rewrite IH. f_equal.
    change (Rdot a (repeat 0 c) = 0). apply Rdot_zero_r.
  Qed.

  Section Step.
    Variables (k n : nat) (X G : rmat) (mu ifc : R).
    Hypotheses (HX : shape k n X) (HG : shape k k G).
    Hypothesis (HA : mm k (map2 (map2 Rplus) (gram X) (mscale ifc (identity k))) G = identity k).
    Hypothesis Hi : 0 < ifc.

    (** the increment for the vector of errors nu, before the step size *)
    Definition inc (nu : rvec) : rvec := mv (transpose n X) (mv G nu).
    Lemma inc_len nu : length nu = k -> length (inc nu) = n /\ length (mv G nu) = k.
    Proof. intros L. split; [unfold inc; rewrite mv_len; apply transpose_len|rewrite mv_len; apply HG]. Qed.
    Lemma inc_eq nu : length nu = k -> nu = vadd (mv X (inc nu)) (vsc ifc (mv G nu)).
    Proof.
      intros L. pose proof (st_e solve k n X G nu (repeat 0 n) mu ifc HX L (repeat_length 0 n) HG HA) as E. cbv zeta in E.
      rewrite (mv_zero k n X HX), (vsub_zero_r nu k L) in E. exact E.
    Qed.
    Lemma inc_dot nu : length nu = k -> Rdot (mv G nu) nu = normsq (inc nu) + ifc * normsq (mv G nu).
    Proof.
      intros L. destruct (inc_len nu L) as (L1 & L2). rewrite (inc_eq nu L) at 2. assert (Lx : length (mv X (inc nu)) = k) by (rewrite mv_len; apply HX).
      rewrite Rdot_vadd_r by (rewrite ?vsc_length; congruence). rewrite Rdot_vsc_r. f_equal.
      rewrite (mv_adjoint solve k n X (mv G nu) (inc nu) HX L2 L1). reflexivity.
    Qed.
    (** bounded by the errors alone, however large the inputs are *)
    Lemma inc_bound nu : length nu = k -> norm (inc nu) <= norm nu / (2 * sqrt ifc).
    Proof.
      intros L. pose proof (inc_dot nu L) as E. pose proof (Cauchy_Schwarz (mv G nu) nu) as CS. set (z := mv G nu) in *. set (g := inc nu) in *.
      assert (Hs : 0 < sqrt ifc) by (apply sqrt_lt_R0; exact Hi).
      assert (H : normsq g <= normsq nu / (4 * ifc)).
      { assert (B : Rdot z nu <= ifc * normsq z + normsq nu / (4 * ifc)).
        { pose proof (normsq_nonneg z) as Z. pose proof (normsq_nonneg nu) as N. set (a := normsq z) in *. set (b := normsq nu) in *.
          apply Rsqr_incr_0_var; [|assert (0 <= ifc * a) by (apply Rmult_le_pos; lra); assert (0 <= b / (4 * ifc)) by (apply Rmult_le_pos; [lra|left; apply Rinv_0_lt_compat; lra]); lra].
          unfold Rsqr. apply Rle_trans with (a * b); [exact CS|]. pose proof (pow2_ge_0 (ifc * a - b / (4 * ifc))) as S0.
          replace ((ifc * a + b / (4 * ifc)) * (ifc * a + b / (4 * ifc))) with ((ifc * a - b / (4 * ifc)) ^ 2 + a * b) by (field; lra). lra. }
        lra. }
      replace (norm nu / (2 * sqrt ifc)) with (sqrt (normsq nu / (4 * ifc))).
      - unfold norm. apply sqrt_le_1; [apply normsq_nonneg| |exact H]. pose proof (normsq_nonneg g). lra.
      - rewrite sqrt_div by (try apply normsq_nonneg; lra). unfold norm. f_equal. rewrite sqrt_mult by lra. f_equal. replace 4 with (2 * 2) by ring. apply sqrt_square. lra.
    Qed.
    Lemma inc_add u v : length u = k -> length v = k -> inc (vadd u v) = vadd (inc u) (inc v).
    Proof.
      intros Lu Lv. unfold inc. rewrite (mv_vadd solve k k) by auto. rewrite (mv_vadd solve n k); [reflexivity|apply transpose_shape; apply HX| |]; rewrite mv_len; apply HG.
    Qed.

    (** noise-free part of a step *)
    Lemma inc_energy w ws alpha : length w = n -> length ws = n -> 0 <= mu <= 2 -> 0 <= alpha -> (forall v, length v = n -> alpha * normsq v <= normsq (mv X v)) ->
      distsq (vadd w (vsc mu (inc (vsub (mv X ws) (mv X w))))) ws <= (1 - mu * (2 - mu) * (alpha / (alpha + ifc))) * distsq w ws.
    Proof.
      intros Lw Lws Hm Ha Hex. assert (LD : length (mv X ws) = k) by (rewrite mv_len; apply HX).
      destruct (st_energy solve k n X G (mv X ws) w mu ifc ws HX LD Lw HG HA Lws eq_refl) as (E1 & _).
      set (e := vsub (mv X ws) (mv X w)) in *. assert (Le : length e = k) by (apply vsub_length; auto; rewrite mv_len; apply HX). change (mv (transpose n X) (mv G e)) with (inc e) in E1.
      pose proof (inc_dot e Le) as Ed. pose proof (inc_eq e Le) as Ee. destruct (inc_len e Le) as (Lg & Lz). set (z := mv G e) in *. set (g := inc e) in *.
      set (v := vsub ws w). assert (Lv : length v = n) by (apply vsub_length; auto). assert (EX : mv X v = e) by (unfold v, e; apply (mv_vsub solve k n); auto).
      assert (Evg : Rdot v g = normsq g + ifc * normsq z). { rewrite <- Ed. unfold g, inc. fold z. rewrite Rdot_comm. rewrite <- (mv_adjoint solve k n X z v HX Lz Lv), EX. reflexivity. }
      set (r := vsub v g). assert (Lr : length r = n) by (apply vsub_length; auto). assert (Lxg : length (mv X g) = k) by (rewrite mv_len; apply HX).
      assert (EXr : mv X r = vsc ifc z).
      { unfold r. rewrite (mv_vsub solve k n) by auto. rewrite EX. rewrite Ee at 1. apply nth_ext0.
        - rewrite (vsub_length _ _ k), vsc_length; auto. apply vadd_length; rewrite ?vsc_length; auto.
        - intros i _. rewrite nth_vsub by (rewrite (vadd_length _ _ k); rewrite ?vsc_length; congruence). rewrite nth_vadd by (rewrite vsc_length; congruence). ring. }
      assert (Erg : Rdot r g = ifc * normsq z). { unfold r. rewrite Rdot_vsub_l by congruence. rewrite Evg. unfold normsq. ring. }
      assert (Hr : alpha * normsq r <= ifc * ifc * normsq z). { pose proof (Hex r Lr) as H. rewrite EXr, normsq_vsc in H. exact H. }
      assert (Enr : normsq v = normsq r + 2 * (ifc * normsq z) + normsq g).
      { pose proof (normsq_vsub v g ltac:(congruence)) as H. fold r in H. rewrite Evg in H. lra. }
      pose proof (normsq_nonneg z) as Z0. pose proof (normsq_nonneg g) as G0. pose proof (normsq_nonneg r) as R0.
      assert (Hg : alpha * normsq z <= normsq g).
      { destruct (Req_dec (normsq z) 0) as [E0|N0]; [rewrite E0; lra|]. assert (Zp : 0 < normsq z) by lra.
        pose proof (Cauchy_Schwarz r g) as CS. rewrite Erg in CS. set (a := normsq z) in *. set (b := normsq g) in *. set (c := normsq r) in *.
        assert (H1 : alpha * (ifc * a * (ifc * a)) <= alpha * c * b) by (rewrite (Rmult_assoc alpha c b); apply Rmult_le_compat_l; lra).
        assert (H2 : alpha * c * b <= ifc * ifc * a * b) by (apply Rmult_le_compat_r; lra).
        apply Rmult_le_reg_l with (ifc * ifc * a); [repeat apply Rmult_lt_0_compat; lra|]. lra. }
      assert (Key : alpha / (alpha + ifc) * normsq v <= normsq g + ifc * normsq z).
      { apply Rmult_le_reg_l with (alpha + ifc); [lra|]. replace ((alpha + ifc) * (alpha / (alpha + ifc) * normsq v)) with (alpha * normsq v) by (field; lra).
        rewrite Enr. assert (ifc * (alpha * normsq z) <= ifc * normsq g) by (apply Rmult_le_compat_l; lra). lra. }
      assert (Ev : distsq w ws = normsq v). { unfold v. rewrite normsq_vsub by congruence. unfold distsq. rewrite normsq_vsub by congruence. rewrite (Rdot_comm w ws). ring. }
      rewrite E1, Ev. assert (M : 0 <= mu * (2 - mu)) by (apply Rmult_le_pos; lra).
      assert (K2 : mu * (2 - mu) * (alpha / (alpha + ifc) * normsq v) <= mu * (2 - mu) * (normsq g + ifc * normsq z)) by (apply Rmult_le_compat_l; lra).
      assert (K3 : 0 <= mu * mu * (ifc * normsq z)) by (apply Rmult_le_pos; [apply Rmult_le_pos; lra|apply Rmult_le_pos; lra]). lra.
    Qed.

    (** one step, whatever the targets *)
    Lemma inc_step D w ws alpha : length D = k -> length w = n -> length ws = n -> 0 <= mu <= 2 -> 0 <= alpha -> (forall v, length v = n -> alpha * normsq v <= normsq (mv X v)) ->
      dist (vadd w (vsc mu (inc (vsub D (mv X w))))) ws <= sqrt (1 - mu * (2 - mu) * (alpha / (alpha + ifc))) * dist w ws + mu / (2 * sqrt ifc) * norm (vsub D (mv X ws)).
    Proof.
      intros LD Lw Lws Hm Ha Hex. set (nu := vsub D (mv X ws)). assert (Lx : forall v, length (mv X v) = k) by (intros; rewrite mv_len; apply HX).
      assert (Ln : length nu = k) by (apply vsub_length; auto). set (e := vsub (mv X ws) (mv X w)). assert (Le : length e = k) by (apply vsub_length; auto).
      assert (ED : vsub D (mv X w) = vadd e nu).
      { apply nth_ext0; [rewrite (vsub_length _ _ k), (vadd_length _ _ k); auto|]. intros i _. rewrite nth_vadd by congruence. unfold e, nu. rewrite !nth_vsub by (rewrite ?Lx; auto). ring. }
      rewrite ED, inc_add by auto. destruct (inc_len e Le) as (Lg & _). destruct (inc_len nu Ln) as (Lg2 & _).
      set (w1 := vadd w (vsc mu (inc e))). assert (L1 : length w1 = n) by (apply vadd_length; rewrite ?vsc_length; auto).
      assert (E2 : vadd w (vsc mu (vadd (inc e) (inc nu))) = vadd w1 (vsc mu (inc nu))).
      { assert (L3 : length (vadd (inc e) (inc nu)) = n) by (apply vadd_length; auto). apply nth_ext0; [rewrite !(vadd_length _ _ n); rewrite ?vsc_length; auto|]. intros i _. unfold w1.
        fold w1. rewrite (nth_vadd w1) by (rewrite vsc_length; congruence). unfold w1. rewrite !(nth_vadd w) by (rewrite vsc_length; congruence). rewrite !nth_vsc. rewrite (nth_vadd (inc e)) by congruence. ring. }
      rewrite E2. assert (L2 : length (vadd w1 (vsc mu (inc nu))) = n) by (apply vadd_length; rewrite ?vsc_length; auto).
      eapply Rle_trans; [apply (dist_triangle _ w1 _ n); auto|]. rewrite Rplus_comm. apply Rplus_le_compat.
      - pose proof (inc_energy w ws alpha Lw Lws Hm Ha Hex) as H. fold e w1 in H. unfold dist.
        destruct (Rle_lt_dec (distsq w ws) 0) as [Z|P].
        + assert (Z0 : distsq w ws = 0) by (apply Rle_antisym; [exact Z|apply normsq_nonneg]). rewrite Z0 in *. rewrite Rmult_0_r in H. rewrite sqrt_0, Rmult_0_r.
          replace (distsq w1 ws) with 0 by (apply Rle_antisym; [apply normsq_nonneg|exact H]). rewrite sqrt_0. lra.
        + assert (F : 0 <= 1 - mu * (2 - mu) * (alpha / (alpha + ifc))).
          { apply Rmult_le_reg_r with (distsq w ws); [exact P|]. rewrite Rmult_0_l. apply Rle_trans with (distsq w1 ws); [apply normsq_nonneg|exact H]. }
          rewrite <- sqrt_mult by (try apply normsq_nonneg; exact F). apply sqrt_le_1; [apply normsq_nonneg|apply Rmult_le_pos; [exact F|apply normsq_nonneg]|exact H].
      - rewrite dist_norm. replace (vsub (vadd w1 (vsc mu (inc nu))) w1) with (vsc mu (inc nu)).
        + rewrite norm_vsc, Rabs_right by lra. pose proof (inc_bound nu Ln) as B. unfold Rdiv in *. rewrite Rmult_assoc. apply Rmult_le_compat_l; [lra|]. lra.
        + apply nth_ext0; [rewrite (vsub_length _ _ n), vsc_length; auto|]. intros i _. rewrite nth_vsub by congruence. rewrite nth_vadd by (rewrite vsc_length; congruence). ring.
    Qed.
  End Step.

  (** ** One call of adapt after any history *)
  Section History.
    Variables (rng : nat -> rvec) (kw : kwargs R) (n : nat) (o o' : obj) (ps : list (op (T := R))) (d : R) (x : rvec) (mu : R) (order : nat) (ifc : R).
    (** a new AP filter with these settings was called in any way (ps), and then adapt(d, x) returned *)
    Definition ap_adapt : Prop := good_solver solve /\ rng_ok rng /\ sane_kw kw /\ kw_n kw = Some (Z.of_nat n) /\
      kw_mu kw = Some mu /\ kw_order kw = Some order /\ kw_ifc kw = Some ifc /\ 0 < ifc /\
      new_filter rng KAP kw = Ok o /\ Forall (op_shape n) ps /\ length x = n /\ adapt d x (exec_all ps o) = (o', Ok tt).
    Hypothesis H : ap_adapt.
    Let St := stored order n (fed_all ps o ++ [(d, x)]).
    Let w : rvec := o_w (exec_all ps o).

    (** whatever the inputs, an update is bounded by the errors on the stored samples *)
    Theorem C108_update : dist (o_w o') w <= Rabs mu / (2 * sqrt ifc) * norm (errors w St).
    Proof.
      destruct H as (HS & Hrng & Hkw & Hn & Hmu & Hor & Hif & Hi & Ho & HF & Hl & HA).
      destruct (ap_step_history solve rng kw n o ps d x o' mu order ifc HS Hrng Hkw Hn Hmu Hor Hif Ho HF Hl HA) as (G & HX & HD & Hw & HG & HAG & Hw').
      fold St w in HX, HD, Hw, HG, HAG, Hw'. rewrite (errors_vsub solve), Hw'. set (D := map fst St) in *. set (X := map snd St : rmat) in *.
      change (mv (transpose n X) (mv G (vsub D (mv X w)))) with (inc n X G (vsub D (mv X w))).
      assert (Le : length (vsub D (mv X w)) = order) by (apply vsub_length; auto; rewrite mv_len; apply HX).
      destruct (inc_len order n X G HG _ Le) as (Lg & _). rewrite dist_norm. set (g := inc n X G (vsub D (mv X w))) in *.
      replace (vsub (vadd w (vsc mu g)) w) with (vsc mu g).
      - rewrite norm_vsc. pose proof (inc_bound order n X G mu ifc HX HG HAG Hi _ Le) as B. fold g in B. pose proof (Rabs_pos mu).
        unfold Rdiv in *. rewrite Rmult_assoc. apply Rmult_le_compat_l; [apply Rabs_pos|]. rewrite Rmult_comm. exact B.
      - apply nth_ext0; [rewrite (vsub_length _ _ n), vsc_length; auto; apply vadd_length; rewrite ?vsc_length; auto|]. intros i _.
        rewrite nth_vsub by (rewrite (vadd_length _ _ n); rewrite ?vsc_length; congruence). rewrite nth_vadd by (rewrite vsc_length; congruence). ring.
    Qed.
    (** whatever the targets and inputs, the distance to any weights ws grows at most by the errors of ws on the stored samples *)
    Theorem C108_disturbed : forall ws, length ws = n -> 0 <= mu <= 2 -> dist (o_w o') ws <= dist w ws + mu / (2 * sqrt ifc) * norm (errors ws St).
    Proof.
      destruct H as (HS & Hrng & Hkw & Hn & Hmu & Hor & Hif & Hi & Ho & HF & Hl & HA). intros ws Lws Hm.
      destruct (ap_step_history solve rng kw n o ps d x o' mu order ifc HS Hrng Hkw Hn Hmu Hor Hif Ho HF Hl HA) as (G & HX & HD & Hw & HG & HAG & Hw').
      fold St w in HX, HD, Hw, HG, HAG, Hw'. rewrite (errors_vsub solve), Hw'. set (D := map fst St) in *. set (X := map snd St : rmat) in *.
      pose proof (inc_step order n X G mu ifc HX HG HAG Hi D w ws 0 HD Hw Lws Hm (Rle_refl 0)) as B.
      eapply Rle_trans; [apply B; intros v _; rewrite Rmult_0_l; apply normsq_nonneg|]. replace (1 - mu * (2 - mu) * (0 / (0 + ifc))) with 1 by (field; lra). rewrite sqrt_1, Rmult_1_l. lra.
    Qed.
  End History.

  (** ** Runs *)
  Lemma normsq_le v U : (forall i, (i < length v)%nat -> Rabs (nth i v 0) <= U) -> normsq v <= INR (length v) * (U * U).
  Proof.
    intros H. unfold normsq. induction v as [|a v IH]; [cbn; lra|]. cbn [Rdot length]. rewrite S_INR.
    assert (IH' : Rdot v v <= INR (length v) * (U * U)) by (apply IH; intros i Hi; apply (H (S i)); cbn; lia).
    assert (Ha : Rabs a <= U) by (apply (H 0%nat); cbn; lia). assert (a * a <= U * U).
    { replace (a * a) with (Rabs a * Rabs a). - pose proof (Rabs_pos a). apply Rmult_le_compat; lra. - rewrite <- Rabs_mult. apply Rabs_right. apply Rle_ge, Rle_0_sqr. }
    lra.
  Qed.
  Lemma window_first_nth {A} order (pad : A) N f j : (j < order)%nat -> nth j (window order pad (first N f)) pad = if (j <? N)%nat then f (N - 1 - j)%nat else pad.
  Proof.
    intros Hj. unfold window. rewrite nth_firstn by exact Hj.
    destruct (Nat.ltb_spec j N) as [L|L].
    - rewrite app_nth1 by (rewrite rev_length, first_length; exact L). rewrite rev_nth by (rewrite first_length; exact L). rewrite first_length, first_nth by lia. f_equal. lia.
    - rewrite app_nth2 by (rewrite rev_length, first_length; exact L). apply nth_repeat.
  Qed.
  Lemma sumn_flip N f : sumn N f = sumn N (fun j => f (N - 1 - j)%nat).
  Proof.
    revert f. induction N as [|N IH]; intros f; [reflexivity|].
    transitivity (f 0%nat + sumn N (fun i => f (S i))).
    - clear IH. induction N as [|N IH]; [cbn; ring|]. cbn [sumn] in *. rewrite IH. ring.
    - rewrite (IH (fun i => f (S i))). cbn [sumn]. replace (S N - 1 - N)%nat with 0%nat by lia. rewrite Rplus_comm. f_equal. apply sumn_ext. intros j Hj. f_equal. lia.
  Qed.

  (** a run of a new AP filter with these settings *)
  Definition ap_run (n : nat) (mu : R) (order : nat) (ifc : R) (o o' : obj) (d : rvec) (x : list rvec) (w : list rvec) : Prop :=
    exists rng (kw : kwargs R) y e, good_solver solve /\ rng_ok rng /\ sane_kw kw /\ kw_n kw = Some (Z.of_nat n) /\
      kw_mu kw = Some mu /\ kw_order kw = Some order /\ kw_ifc kw = Some ifc /\ 0 < ifc /\
      new_filter rng KAP kw = Ok o /\ rows_of n x /\ run d x o = (o', Ok (y, e, w)).

  Lemma ap_run_step n mu order ifc (o o' : obj) d x w k : ap_run n mu order ifc o o' d x w -> (k < length x)%nat ->
    let St := stored order n (first (S k) (fun i => (nth i d 0, nth i x []))) in
    let X : rmat := map snd St in let D : rvec := map fst St in
    exists G : rmat, shape order n X /\ length D = order /\ length (wrow w (o_w o') k) = n /\ shape order order G /\
      mm order (map2 (map2 Rplus) (gram X) (mscale ifc (identity order))) G = identity order /\
      wrow w (o_w o') (S k) = vadd (wrow w (o_w o') k) (vsc mu (inc n X G (vsub D (mv X (wrow w (o_w o') k))))).
  Proof.
    intros (rng & kw & y & e & HS & Hrng & Hkw & Hn & Hmu & Hor & Hif & Hi & Ho & Hx & HR) Hk St X D.
    destruct (ap_history solve rng kw n o [] mu order ifc Hrng Hkw Hn Hmu Hor Hif Ho (Forall_nil _)) as (Hwf & Hinv & HM). cbn [exec_all fold_left fed_all] in Hwf, Hinv, HM.
    assert (Inv : forall j, (j < length x)%nat -> ap_inv order ifc mu (state_after j d x o) /\ memory_is order n (first j (fun i => (nth i d 0, nth i x []))) (state_after j d x o)).
    { induction j as [|j IH]; intros Hj; [split; [exact Hinv|exact HM]|]. destruct (IH ltac:(lia)) as (I1 & I2).
      destruct (run_step solve n o o' d x y e w j Hwf Hx HR ltac:(lia)) as (s & s' & Ws & _ & Es & Es' & Ha & _ & _ & _ & _ & Lx). rewrite <- Es in I1, I2. rewrite <- Es'.
      pose proof (ap_inv_adapt order ifc mu n s (nth j d 0) (nth j x []) Ws Lx I1) as J1. pose proof (memory_push order n _ s (nth j d 0) (nth j x []) Ws Lx I2) as J2.
      rewrite Ha in J1, J2. cbn [fst] in J1, J2. split; [exact J1|]. rewrite first_S. exact J2. }
    destruct (Inv k Hk) as (I1 & I2).
    destruct (run_step solve n o o' d x y e w k Hwf Hx HR Hk) as (s & s' & Ws & _ & Es & Es' & Ha & Ew & Ew' & _ & _ & Lx). rewrite <- Es in I1, I2.
    assert (Hpast : forall t u, In (t, u) (first k (fun i => (nth i d 0, nth i x []))) -> length u = n).
    { intros t u Hin. unfold first in Hin. apply in_map_iff in Hin as (i & [= _ <-] & Hi'). apply in_seq in Hi'. apply nth_rows; auto. lia. }
    destruct (ap_step_state solve order ifc mu n s _ (nth k d 0) (nth k x []) s' HS Ws I1 I2 Hpast Lx Ha) as (G & A1 & A2 & A3 & A4 & A5 & A6).
    change (first k (fun i => (nth i d 0, nth i x [])) ++ [(nth k d 0, nth k x [])]) with (first k (fun i => (nth i d 0, nth i x [])) ++ [(fun i => (nth i d 0, nth i x [])) k]) in A1, A2, A5, A6.
    rewrite <- first_S in A1, A2, A5, A6. rewrite Ew in *. rewrite Ew' in A6. exists G. split; [exact A1|]. split; [exact A2|]. split; [exact A3|]. split; [exact A4|]. split; [exact A5|exact A6].
  Qed.

  (** the errors of the system of this instant on the stored samples *)
  Lemma drift_between (Sys : nat -> rvec) n del i j : (forall i, length (Sys i) = n) -> (forall i, drift_at Sys i <= del) -> dist (Sys i) (Sys (i + j)%nat) <= INR j * del.
  Proof.
    intros HL Hd. induction j as [|j IH].
    - rewrite Nat.add_0_r. unfold dist, distsq. rewrite normsq_vsub by reflexivity. unfold normsq. replace (Rdot (Sys i) (Sys i) - 2 * Rdot (Sys i) (Sys i) + Rdot (Sys i) (Sys i)) with 0 by ring. rewrite sqrt_0. cbn. lra.
    - rewrite S_INR, Nat.add_succ_r. eapply Rle_trans; [apply (dist_triangle _ (Sys (i + j)%nat) _ n); auto|]. specialize (Hd (i + j)%nat). unfold drift_at in Hd. lra.
  Qed.
  Lemma abs_dot' u v : Rabs (Rdot u v) <= norm u * norm v.
  Proof.
    apply Rsqr_incr_0_var; [|apply Rmult_le_pos; apply norm_pos]. rewrite <- Rsqr_abs. unfold Rsqr.
    replace (norm u * norm v * (norm u * norm v)) with ((norm u * norm u) * (norm v * norm v)) by ring. rewrite !norm_sq. apply Cauchy_Schwarz.
  Qed.
  Lemma stored_errors n order d x (Sys : nat -> rvec) XB V del k : (k < length x)%nat -> rows_of n x -> (forall i, (i < length x)%nat -> norm (nth i x []) <= XB) -> (forall i, length (Sys i) = n) ->
    (forall i, (i < length x)%nat -> Rabs (disturbance Sys x d i) <= V) -> (forall i, drift_at Sys i <= del) ->
    norm (errors (Sys k) (stored order n (first (S k) (fun i => (nth i d 0, nth i x []))))) <= sqrt (INR order) * (V + INR order * del * XB).
  Proof.
    intros Hk Hx HX HL HV Hd. set (St := stored order n _). set (U := V + INR order * del * XB).
    assert (X0 : 0 <= XB) by (eapply Rle_trans; [apply norm_pos|apply (HX k Hk)]). assert (V0 : 0 <= V) by (eapply Rle_trans; [apply Rabs_pos|apply (HV k Hk)]).
    assert (D0 : 0 <= del) by (eapply Rle_trans; [apply sqrt_pos|apply (Hd 0%nat)]).
    assert (U0 : 0 <= U) by (unfold U; assert (0 <= INR order * del * XB) by (apply Rmult_le_pos; auto; apply Rmult_le_pos; auto; apply pos_INR); lra).
    assert (LS : length St = order) by apply window_length. assert (LE : length (errors (Sys k) St) = order) by (unfold errors; rewrite map_length; exact LS).
    unfold norm. rewrite <- (sqrt_square U U0), <- sqrt_mult by (try apply pos_INR; apply Rmult_le_pos; exact U0).
    apply sqrt_le_1; [apply normsq_nonneg|apply Rmult_le_pos; [apply pos_INR|apply Rmult_le_pos; exact U0]|]. rewrite <- LE. apply normsq_le. intros j Hj. rewrite LE in Hj.
    set (F := fun '(t, u) => t - Rdot u (Sys k)). assert (EF : nth j (errors (Sys k) St) 0 = F (nth j St (0, repeat 0 n))).
    { rewrite <- (map_nth F). change (errors (Sys k) St) with (map F St). apply nth_indep. rewrite map_length, LS. exact Hj. }
    rewrite EF. unfold St, stored. rewrite window_first_nth by exact Hj. destruct (Nat.ltb_spec j (S k)) as [L|L].
    - replace (S k - 1 - j)%nat with (k - j)%nat by lia. set (i := (k - j)%nat). assert (Hi : (i < length x)%nat) by lia. unfold F.
      replace (nth i d 0 - Rdot (nth i x []) (Sys k)) with (disturbance Sys x d i + Rdot (vsub (Sys i) (Sys k)) (nth i x [])).
      2: { unfold disturbance. rewrite Rdot_vsub_l by (rewrite ?HL; auto; symmetry; apply nth_rows; auto). rewrite (Rdot_comm (nth i x [])). ring. }
      eapply Rle_trans; [apply Rabs_triang|]. unfold U. apply Rplus_le_compat; [apply HV; exact Hi|]. eapply Rle_trans; [apply abs_dot'|]. rewrite <- dist_norm.
      apply Rmult_le_compat; [apply sqrt_pos|apply norm_pos| |apply HX; exact Hi]. replace k with (i + j)%nat at 1 by lia.
      eapply Rle_trans; [apply (drift_between Sys n del i j HL Hd)|]. apply Rmult_le_compat_r; [exact D0|]. apply le_INR. lia.
    - unfold F. rewrite Rdot_zero_l, Rminus_0_r, Rabs_R0. exact U0.
  Qed.

  Definition per_sample (mu : R) (order : nat) (ifc V del XB : R) : R := mu * sqrt (INR order) * (V + INR order * del * XB) / (2 * sqrt ifc) + del.

  Lemma track_step n mu order ifc (o o' : obj) d x w (Sys : nat -> rvec) XB V del alpha k : ap_run n mu order ifc o o' d x w -> 0 < mu < 2 ->
    (forall i, (i < length x)%nat -> norm (nth i x []) <= XB) -> (forall i, length (Sys i) = n) ->
    (forall i, (i < length x)%nat -> Rabs (disturbance Sys x d i) <= V) -> (forall i, drift_at Sys i <= del) -> (k < length x)%nat -> 0 <= alpha ->
    (forall v, length v = n -> alpha * normsq v <= normsq (mv (map snd (stored order n (first (S k) (fun i => (nth i d 0, nth i x [])))) : rmat) v)) ->
    dist (wrow w (o_w o') (S k)) (Sys (S k)) <= sqrt (1 - mu * (2 - mu) * (alpha / (alpha + ifc))) * dist (wrow w (o_w o') k) (Sys k) + per_sample mu order ifc V del XB.
  Proof.
    intros Hrun Hm HX HL HV Hd Hk Ha Hex. destruct (ap_run_step n mu order ifc o o' d x w k Hrun Hk) as (G & A1 & A2 & A3 & A4 & A5 & A6).
    destruct Hrun as (rng & kw & y & e & _ & _ & _ & _ & _ & _ & _ & Hi & _ & Hx & _).
    set (St := stored order n _) in *. pose proof (inc_step order n (map snd St) G mu ifc A1 A4 A5 Hi (map fst St) (wrow w (o_w o') k) (Sys k) alpha A2 A3 (HL k) ltac:(lra) Ha Hex) as B.
    rewrite <- A6 in B. rewrite <- (errors_vsub solve) in B. pose proof (stored_errors n order d x Sys XB V del k Hk Hx HX HL HV Hd) as E. fold St in E.
    assert (L1 : length (wrow w (o_w o') (S k)) = n).
    { rewrite A6. apply vadd_length; [exact A3|]. rewrite vsc_length. apply (inc_len order n _ G A4). apply vsub_length; [exact A2|]. rewrite mv_len. apply A1. }
    assert (Hs : 0 < sqrt ifc) by (apply sqrt_lt_R0; exact Hi).
    eapply Rle_trans; [apply (dist_triangle _ (Sys k) _ n); auto|]. specialize (Hd k). unfold drift_at in Hd. unfold per_sample.
    assert (C : mu / (2 * sqrt ifc) * norm (errors (Sys k) St) <= mu / (2 * sqrt ifc) * (sqrt (INR order) * (V + INR order * del * XB))).
    { apply Rmult_le_compat_l; [|exact E]. apply Rmult_le_pos; [lra|left; apply Rinv_0_lt_compat; lra]. }
    replace (mu * sqrt (INR order) * (V + INR order * del * XB) / (2 * sqrt ifc)) with (mu / (2 * sqrt ifc) * (sqrt (INR order) * (V + INR order * del * XB))) by (field; lra). lra.
  Qed.
  Lemma wrow_0 n mu order ifc (o o' : obj) d x w : ap_run n mu order ifc o o' d x w -> wrow w (o_w o') 0 = o_w o.
  Proof.
    intros (rng & kw & y & e & HS & Hrng & Hkw & Hn & Hmu & Hor & Hif & Hi & Ho & Hx & HR).
    pose proof (new_filter_wf rng KAP kw n o Hrng Hkw Hn Ho) as Hwf.
    assert (Hl : length d = length x). { destruct (Nat.eq_dec (length d) (length x)) as [|Hc]; auto. rewrite run_bad_length in HR by assumption; discriminate. }
    assert (Hne : x <> []) by (intros ->; destruct d; discriminate).
    destruct (run_step solve n o o' d x y e w 0 Hwf Hx HR) as (s & s' & _ & _ & Es & _ & _ & Ew & _); [destruct x; [congruence|cbn; lia]|]. rewrite <- Ew, Es. reflexivity.
  Qed.

  (** no assumption on the inputs except their size: the distance to the moving system grows at most by a fixed amount per sample *)
  Theorem C108_bounded : forall n mu order ifc (o o' : obj) d x w (Sys : nat -> rvec) XB V del, ap_run n mu order ifc o o' d x w -> 0 < mu < 2 ->
    (forall i, (i < length x)%nat -> norm (nth i x []) <= XB) -> (forall i, length (Sys i) = n) ->
    (forall i, (i < length x)%nat -> Rabs (disturbance Sys x d i) <= V) -> (forall i, drift_at Sys i <= del) ->
    forall k, (k <= length x)%nat -> dist (wrow w (o_w o') k) (Sys k) <= dist (o_w o) (Sys 0%nat) + INR k * per_sample mu order ifc V del XB.
  Proof.
    intros n mu order ifc o o' d x w Sys XB V del Hrun Hm HX HL HV Hd. assert (Hi : 0 < ifc) by (destruct Hrun as (? & ? & ? & ? & _ & _ & _ & _ & _ & _ & _ & Hi & _); exact Hi).
    induction k as [|k IH]; intros Hk; [rewrite (wrow_0 n mu order ifc o o' d x w Hrun); cbn [INR]; lra|].
    pose proof (track_step n mu order ifc o o' d x w Sys XB V del 0 k Hrun Hm HX HL HV Hd ltac:(lia) (Rle_refl 0) ltac:(intros v _; rewrite Rmult_0_l; apply normsq_nonneg)) as B.
    replace (1 - mu * (2 - mu) * (0 / (0 + ifc))) with 1 in B by (field; lra). rewrite sqrt_1, Rmult_1_l in B. specialize (IH ltac:(lia)). rewrite S_INR. lra.
  Qed.

  (** inputs that excite all directions in every window of `order` samples: the distance to the moving system is bounded for ever *)
  Theorem C108_tracking : forall n mu order ifc (o o' : obj) d x w (Sys : nat -> rvec) XB V del alpha, ap_run n mu order ifc o o' d x w -> 0 < mu < 2 ->
    exciting_list n order alpha x -> (forall i, (i < length x)%nat -> norm (nth i x []) <= XB) -> (forall i, length (Sys i) = n) ->
    (forall i, (i < length x)%nat -> Rabs (disturbance Sys x d i) <= V) -> (forall i, drift_at Sys i <= del) ->
    let q := sqrt (1 - mu * (2 - mu) * (alpha / (alpha + ifc))) in let b := per_sample mu order ifc V del XB in
    0 <= q < 1 /\
    forall k, (order <= S k)%nat -> (k <= length x)%nat -> (1 <= order)%nat ->
      dist (wrow w (o_w o') k) (Sys k) <= q ^ (S k - order) * (dist (o_w o) (Sys 0%nat) + INR (order - 1) * b) + b / (1 - q).
  Proof.
    intros n mu order ifc o o' d x w Sys XB V del alpha Hrun Hm (Ha & Hex) HX HL HV Hd q b.
    assert (Hi : 0 < ifc) by (destruct Hrun as (? & ? & ? & ? & _ & _ & _ & _ & _ & _ & _ & Hi & _); exact Hi).
    assert (Hx : rows_of n x) by (destruct Hrun as (? & ? & ? & ? & _ & _ & _ & _ & _ & _ & _ & _ & _ & Hx & _); exact Hx).
    assert (Hf : 0 < alpha / (alpha + ifc) <= 1).
    { split; [apply Rdiv_lt_0_compat; lra|]. apply Rmult_le_reg_r with (alpha + ifc); [lra|]. unfold Rdiv. rewrite Rmult_assoc, Rinv_l by lra. lra. }
    assert (Hmm : 0 < mu * (2 - mu) <= 1) by (split; [apply Rmult_lt_0_compat; lra|pose proof (pow2_ge_0 (mu - 1)); lra]).
    assert (Hp : 0 < mu * (2 - mu) * (alpha / (alpha + ifc)) <= 1).
    { split; [apply Rmult_lt_0_compat; lra|]. replace 1 with (1 * 1) by ring. apply Rmult_le_compat; lra. }
    assert (Hq : 0 <= q < 1). { split; [apply sqrt_pos|]. unfold q. rewrite <- sqrt_1 at 2. apply sqrt_lt_1; lra. }
    split; [exact Hq|]. intros k Hk1 Hk2 Ho.
    assert (Hb : 0 <= b).
    { unfold b, per_sample. assert (D0 : 0 <= del) by (eapply Rle_trans; [apply sqrt_pos|apply (Hd 0%nat)]).
      destruct (Nat.eq_dec (length x) 0) as [Z|NZ].
      - exfalso. destruct Hrun as (rng & kw & y & e & _ & _ & _ & _ & _ & _ & _ & _ & _ & _ & HR). destruct x; [|discriminate]. destruct d; discriminate HR.
      - assert (X0 : 0 <= XB) by (eapply Rle_trans; [apply norm_pos|apply (HX 0%nat); lia]). assert (V0 : 0 <= V) by (eapply Rle_trans; [apply Rabs_pos|apply (HV 0%nat); lia]).
        assert (0 <= INR order * del * XB) by (apply Rmult_le_pos; auto; apply Rmult_le_pos; auto; apply pos_INR).
        assert (0 < sqrt ifc) by (apply sqrt_lt_R0; exact Hi). pose proof (sqrt_pos (INR order)).
        assert (0 <= mu * sqrt (INR order) * (V + INR order * del * XB) / (2 * sqrt ifc)).
        { apply Rmult_le_pos; [|left; apply Rinv_0_lt_compat; lra]. apply Rmult_le_pos; [apply Rmult_le_pos; lra|lra]. }
        lra. }
    assert (Iq : 0 < / (1 - q)) by (apply Rinv_0_lt_compat; lra). assert (Eb : b / (1 - q) * (1 - q) = b) by (field; lra). set (c := b / (1 - q)) in *.
    assert (C0 : 0 <= c) by (unfold c, Rdiv; apply Rmult_le_pos; lra).
    set (A := dist (o_w o) (Sys 0%nat) + INR (order - 1) * b).
    enough (G : forall j, (order - 1 + j <= length x)%nat -> dist (wrow w (o_w o') (order - 1 + j)) (Sys (order - 1 + j)%nat) <= q ^ j * A + c).
    { replace k with (order - 1 + (S k - order))%nat at 1 2 by lia. apply G. lia. }
    induction j as [|j IH]; intros Hj.
    - rewrite Nat.add_0_r in *. pose proof (C108_bounded n mu order ifc o o' d x w Sys XB V del Hrun Hm HX HL HV Hd (order - 1)%nat Hj) as B. fold b in B. cbn [pow]. unfold A. lra.
    - rewrite Nat.add_succ_r in *. specialize (IH ltac:(lia)). set (i := (order - 1 + j)%nat) in *.
      pose proof (track_step n mu order ifc o o' d x w Sys XB V del alpha i Hrun Hm HX HL HV Hd ltac:(lia) ltac:(lra)) as B. fold q b in B.
      eapply Rle_trans; [apply B|].
      + intros v Lv. specialize (Hex (S i - order)%nat v ltac:(lia) Lv). eapply Rle_trans; [exact Hex|]. rewrite sumn_flip. set (St := stored order n _).
        assert (LS : length St = order) by apply window_length. unfold normsq. rewrite (Rdot_sumn order) by (rewrite mv_len, map_length; exact LS). right. apply sumn_ext. intros t Ht.
        rewrite (mv_nth solve (map snd St)) by (rewrite map_length, LS; exact Ht). rewrite (nth_indep (map snd St) [] (snd (0, repeat 0 n))) by (rewrite map_length, LS; exact Ht).
        rewrite map_nth. unfold St, stored. rewrite window_first_nth by exact Ht. destruct (Nat.ltb_spec t (S i)); [|lia]. cbn [snd].
        replace (S i - order + (order - 1 - t))%nat with (S i - 1 - t)%nat by lia. rewrite (Rdot_comm v). ring.
      + cbn [pow]. assert (q * dist (wrow w (o_w o') i) (Sys i) <= q * (q ^ j * A + c)) by (apply Rmult_le_compat_l; lra).
        replace (q * q ^ j * A + c) with (q * (q ^ j * A + c) + c * (1 - q)) by ring. lra.
  Qed.

  (** such a run always exists when the solver fails only on singular matrices *)
  Lemma ap_run_exists rng (kw : kwargs R) n (o : obj) mu order ifc dd xx : good_solver solve -> complete_solver solve order -> rng_ok rng -> sane_kw kw -> kw_n kw = Some (Z.of_nat n) ->
    kw_mu kw = Some mu -> kw_order kw = Some order -> kw_ifc kw = Some ifc -> 0 < ifc -> new_filter rng KAP kw = Ok o -> (forall k, length (xx k) = n) ->
    forall N, (0 < N)%nat -> exists o' w, ap_run n mu order ifc o o' (first N dd) (first N xx) w.
  Proof.
    intros HS HC Hrng Hkw Hn Hmu Hor Hif Hi Ho Hx N HN.
    destruct (ap_history solve rng kw n o [] mu order ifc Hrng Hkw Hn Hmu Hor Hif Ho (Forall_nil _)) as (Hwf & Hinv & HM). cbn [exec_all fold_left fed_all] in Hwf, Hinv, HM.
    assert (Hp : forall k t u, In (t, u) (first k (fun i => (dd i, xx i))) -> length u = n).
    { intros k t u Hin. unfold first in Hin. apply in_map_iff in Hin as (i & [= _ <-] & _). apply Hx. }
    assert (Inv : forall k, wf n (Oseq solve o dd xx k) /\ ap_inv order ifc mu (Oseq solve o dd xx k) /\ memory_is order n (first k (fun i => (dd i, xx i))) (Oseq solve o dd xx k)).
    { induction k as [|k (I0 & I1 & I2)]; [split; [exact Hwf|split; [exact Hinv|exact HM]]|]. cbn [Oseq].
      split; [|split; [apply (ap_inv_adapt order ifc mu n); auto|rewrite first_S; apply (memory_push order n _ _ (dd k) (xx k)); auto]].
      destruct (adapt_ok n (Oseq solve o dd xx k) (dd k) (xx k) I0 (Hx k)) as (o1 & r & -> & W & _). exact W. }
    destruct (endless_states solve n o dd xx Hwf Hx) with (N := N) as (o' & y & E); [|exact HN|].
    - intros k. destruct (Inv k) as (I0 & I1 & I2). eapply ap_no_raise; eauto.
    - exists o', (first N (fun k => o_w (Oseq solve o dd xx k))), rng, kw, y. eexists. repeat (split; [assumption|]). split; [|exact E].
      unfold rows_of, first. apply Forall_forall. intros r Hin. apply in_map_iff in Hin as (k & <- & _). apply Hx.
  Qed.
End S.

(** The hypotheses can be met: order 2, a system that moves by 1/10 per sample, a disturbance of size 1. *)
Example C108_hypotheses : forall rng N, rng_ok rng -> (0 < N)%nat ->
  let xx := fun k => if Nat.even k then [1; 0] else [1; 2] in let Sys := fun k => [INR k * / 10; 3] in
  let dd := fun k => Rdot (Sys k) (xx k) + (if Nat.even k then 1 else 0) in
  let d := first N dd in let x := first N xx in
  new_filter (NT := RNum rsolve) rng KAP (apR_kw 2 1 (1 / 2)) = Ok (apR 2 1 (1 / 2)) /\
  (exists o' w, ap_run rsolve 2 1 2 (1 / 2) (apR 2 1 (1 / 2)) o' d x w) /\ exciting_list 2 2 (1 / 2) x /\ (forall i, (i < length x)%nat -> norm (nth i x []) <= 3) /\
  (forall i, length (Sys i) = 2%nat) /\ (forall i, (i < length x)%nat -> Rabs (disturbance Sys x d i) <= 1) /\ (forall i, drift_at Sys i <= / 10) /\
  exists o', ap_adapt rsolve rng (apR_kw 2 1 (1 / 2)) 2 (apR 2 1 (1 / 2)) o' [] 5 [1; 2] 1 2 (1 / 2).
Proof.
  intros rng N Hrng HN xx Sys dd d x.
  assert (Hkw : sane_kw (apR_kw 2 1 (1 / 2))) by (split; intros m Hm; cbn in Hm; [discriminate Hm|injection Hm as <-; lia]).
  assert (Lx : forall k, length (xx k) = 2%nat) by (intros k; unfold xx; destruct (Nat.even k); reflexivity).
  assert (NX : forall i, (i < length x)%nat -> nth i x [] = xx i) by (intros i Hi; unfold x in *; rewrite first_length in Hi; apply first_nth; exact Hi).
  split; [apply apR_new|]. split.
  { apply (ap_run_exists rsolve rng (apR_kw 2 1 (1 / 2)) 2 (apR 2 1 (1 / 2)) 1 2 (1 / 2) dd xx rsolve_good rsolve_complete Hrng Hkw eq_refl eq_refl eq_refl eq_refl ltac:(lra) (apR_new rng 2 1 (1 / 2)) Lx N HN). }
  split.
  { split; [lra|]. intros j v Hj Lv. destruct v as [|a [|b [|]]]; try discriminate. cbn [sumn]. rewrite !NX by lia. rewrite Nat.add_0_r. unfold xx.
    replace (j + 1)%nat with (S j) by lia. rewrite Nat.even_succ, <- Nat.negb_even. destruct (Nat.even j); cbn [negb]; unfold normsq; cbn [Rdot];
      pose proof (pow2_ge_0 (a + 2 * b)); pose proof (pow2_ge_0 (a + b)); nra. }
  split.
  { intros i Hi. rewrite NX by exact Hi. unfold norm. rewrite <- (sqrt_square 3) by lra. apply sqrt_le_1; [apply normsq_nonneg|lra|]. unfold xx, normsq. destruct (Nat.even i); cbn [Rdot]; lra. }
  split; [reflexivity|]. split.
  { intros i Hi. unfold disturbance. rewrite NX by exact Hi. unfold x in Hi. rewrite first_length in Hi. unfold d. rewrite first_nth by exact Hi. unfold dd.
    replace (Rdot (Sys i) (xx i) + (if Nat.even i then 1 else 0) - Rdot (Sys i) (xx i)) with (if Nat.even i then 1 else 0) by ring. destruct (Nat.even i); [rewrite Rabs_R1|rewrite Rabs_R0]; lra. }
  split.
  { intros i. unfold drift_at, dist, distsq, Sys. unfold normsq, vsub. cbn [map2 Rdot]. rewrite S_INR.
    replace ((INR i * / 10 - (INR i + 1) * / 10) * (INR i * / 10 - (INR i + 1) * / 10) + ((3 - 3) * (3 - 3) + 0)) with (/ 10 * / 10) by field. rewrite sqrt_square by lra. lra. }
  destruct (adapt (NT := RNum rsolve) 5 [1; 2] (apR 2 1 (1 / 2))) as (o' & r) eqn:E.
  pose proof (C58_AP_never_raises rsolve rng (apR_kw 2 1 (1 / 2)) 2 (apR 2 1 (1 / 2)) [] 5 [1; 2] 1 2 (1 / 2) rsolve_complete Hrng Hkw eq_refl eq_refl eq_refl eq_refl ltac:(lra) (apR_new rng 2 1 (1 / 2)) (Forall_nil _) eq_refl) as Hr.
  cbn [exec_all fold_left] in Hr. rewrite E in Hr. cbn [snd] in Hr. subst r.
  exists o'. split; [exact rsolve_good|]. repeat (split; [first [assumption|reflexivity]|]). split; [lra|]. split; [apply apR_new|]. split; [constructor|]. split; [reflexivity|exact E].
Qed.
