(** C73: the errors of RLS add up to the least-squares cost (exact real arithmetic). *)
From Coq Require Import Reals Lra Psatz.
From Verif Require Import Py Num Numpy Filters Registry Spec StructProofs RunProofs Reach RVec RFilter PropsStability Steps PropsAlgebra RMat PropsRLS PropsRLSRate.
Open Scope R_scope.

(** ** Specification.  The error of sample k computed again with the weights learned from it; the rows of w are the
    weights before each sample, wf the final ones. *)
Definition error_after (w : list rvec) (wf : rvec) (d : rvec) (x : list rvec) (k : nat) : R :=
  nth k d 0 - Rdot (nth (S k) (w ++ [wf]) []) (nth k x []).
(** what weights v cost after k samples: squared errors, older ones discounted by mu, plus the price of moving away
    from the initial weights w0 *)
Definition cost (mu eps : R) (w0 d : rvec) (x : list rvec) (k : nat) (v : rvec) : R :=
  sumn k (fun i => mu ^ (k - 1 - i) * (nth i d 0 - Rdot v (nth i x [])) ^ 2) + mu ^ k * eps * normsq (vsub v w0).

Lemma cost_line mu eps w0 d x n k w u t : length w = n -> length u = n -> length w0 = n ->
  (forall i, (i < k)%nat -> length (nth i x []) = n) ->
  ls_cost mu eps w0 d x k (vadd w (vsc t u)) =
    ls_cost mu eps w0 d x k w
    + t * (sumn k (fun i => mu ^ (k - 1 - i) * (-2 * (nth i d 0 - Rdot w (nth i x [])) * Rdot u (nth i x []))) + mu ^ k * eps * (2 * Rdot (vsub w w0) u))
    + t * t * (sumn k (fun i => mu ^ (k - 1 - i) * Rdot u (nth i x []) ^ 2) + mu ^ k * eps * normsq u).
Proof.
  intros Lw Lu L0 Hx. unfold ls_cost.
  assert (Hd : distsq (vadd w (vsc t u)) w0 = distsq w w0 + 2 * t * Rdot (vsub w w0) u + t * t * normsq u).
  { rewrite distsq_move by congruence. rewrite Rdot_vsub_l by congruence. ring. }
  rewrite Hd.
  assert (Hs : sumn k (fun i => mu ^ (k - 1 - i) * (nth i d 0 - Rdot (vadd w (vsc t u)) (nth i x [])) ^ 2) =
    sumn k (fun i => mu ^ (k - 1 - i) * (nth i d 0 - Rdot w (nth i x [])) ^ 2)
    + t * sumn k (fun i => mu ^ (k - 1 - i) * (-2 * (nth i d 0 - Rdot w (nth i x [])) * Rdot u (nth i x [])))
    + t * t * sumn k (fun i => mu ^ (k - 1 - i) * Rdot u (nth i x []) ^ 2)).
  { rewrite <- !sumn_scal, <- !sumn_plus. apply sumn_ext. intros i Hi.
    rewrite Rdot_vadd_l by (rewrite ?vsc_length; rewrite ?Hx; congruence). rewrite Rdot_vsc_l. ring. }
  rewrite Hs. ring.
Qed.

(** a quadratic with its minimum at t = 0 (or t = 1) *)
Lemma quad_min0 a b c : (forall t, a <= a + t * b + t * t * c) -> b = 0 /\ 0 <= c.
Proof.
  intros H. assert (Hb : b = 0).
  { destruct (Rtotal_order b 0) as [Hb|[Hb|Hb]]; [|exact Hb|]; exfalso.
    - pose proof (H (- b / (Rabs c + 1))) as Ht. assert (0 < Rabs c + 1) by (pose proof (Rabs_pos c); lra).
      pose proof (Rle_abs c). set (t := - b / (Rabs c + 1)) in *. assert (Hp : 0 < t) by (apply Rdiv_lt_0_compat; lra).
      assert (Hm : t * (Rabs c + 1) = - b) by (unfold t; field; lra).
      assert (t * c <= t * Rabs c) by (apply Rmult_le_compat_l; lra).
      assert (H3 : t * (b + t * c) < 0). { assert (b + t * c < 0) by lra. nra. } lra.
    - pose proof (H (- b / (Rabs c + 1))) as Ht. assert (0 < Rabs c + 1) by (pose proof (Rabs_pos c); lra).
      pose proof (Rle_abs c). set (s := b / (Rabs c + 1)) in *.
      replace (- b / (Rabs c + 1)) with (- s) in Ht by (unfold s; field; lra). assert (Hp : 0 < s) by (apply Rdiv_lt_0_compat; lra).
      assert (Hm : s * (Rabs c + 1) = b) by (unfold s; field; lra).
      assert (s * c <= s * Rabs c) by (apply Rmult_le_compat_l; lra).
      assert (H3 : 0 < s * (b - s * c)). { assert (0 < b - s * c) by lra. nra. } lra. }
  split; [exact Hb|]. subst b. pose proof (H 1). lra.
Qed.
Lemma quad_min1 a c q e mu : (forall t, mu * (a + 1 * 1 * c) + (e - 1 * q) ^ 2 <= mu * (a + t * t * c) + (e - t * q) ^ 2) -> mu * c = q * (e - q).
Proof.
  intros H. pose proof (quad_min0 (mu * (a + c) + (e - q) ^ 2) (2 * mu * c - 2 * q * (e - q)) (mu * c + q * q)) as HQ.
  destruct HQ as (HQ & _); [|lra]. intros t. specialize (H (1 + t)).
  replace (mu * (a + 1 * 1 * c) + (e - 1 * q) ^ 2) with (mu * (a + c) + (e - q) ^ 2) in H by ring.
  eapply Rle_trans; [exact H|]. apply Req_le. ring.
Qed.

Section S.
  Variable solve : list rvec -> list rvec -> option (list rvec).
  #[local] Hint Extern 0 (Num R) => exact (RNum solve) : typeclass_instances.
  Notation obj := (obj R).

  Section Run.
    Variables (rng : nat -> rvec) (kw : kwargs R) (n : nat) (o o' : obj) (eps : R) (R0 : list rvec) (d : rvec) (x : list rvec) (y e : rvec) (w : list rvec).
    Hypotheses (Hrng : rng_ok rng) (Hkw : sane_kw kw) (Hn : kw_n kw = Some (Z.of_nat n)) (Hnew : new_filter rng KRLS kw = Ok o)
      (HE : o_ext o = XRLS eps R0) (Heps : 0 < eps) (Hmu : 0 < o_mu o) (Hx : rows_of n x) (Hrun : run d x o = (o', Ok (y, e, w))).
    Let W k := wrow w (o_w o') k.
    Let mu := o_mu o.
    Let post k := error_after w (o_w o') d x k.
    Let J k v := ls_cost mu eps (o_w o) d x k v.

    Lemma W_min k v : (k <= length x)%nat -> length v = n -> J k (W k) <= J k v /\ (J k v <= J k (W k) -> v = W k).
    Proof.
      intros Hk Lv. destruct (C21_least_squares solve rng kw n o o' eps R0 d x y e w Hrng Hkw Hn Hnew HE Heps Hmu Hx Hrun k Hk) as (Lk & Hb).
      destruct (list_eq_dec Req_EM_T v (W k)) as [->|Hne]; [split; [lra|auto]|]. specialize (Hb v Lv Hne).
      change (J k (W k) < J k v) in Hb. split; [lra|]. intros H. lra.
    Qed.
    Lemma W_len k : (k <= length x)%nat -> length (W k) = n.
    Proof. intros Hk. apply (C21_least_squares solve rng kw n o o' eps R0 d x y e w Hrng Hkw Hn Hnew HE Heps Hmu Hx Hrun k Hk). Qed.
    Lemma W_err k : (k < length x)%nat -> nth k e 0 = nth k d 0 - Rdot (W k) (nth k x []) /\ length (nth k x []) = n.
    Proof.
      intros Hk. pose proof (new_filter_wf rng KRLS kw n o Hrng Hkw Hn Hnew) as Hwf.
      destruct (run_step solve n o o' d x y e w k Hwf Hx Hrun Hk) as (s & s' & Hs & Hf & Es & Es' & Ha & Hw & Hw' & Hy & He & Hlx).
      split; [|exact Hlx]. rewrite He, Hy.
      destruct Hf as (_ & _ & Hk'). rewrite HE in Hk'.
      assert (Hap : is_AP s = false) by (unfold is_AP; destruct (o_ext s); auto; discriminate Hk').
      assert (Hoc : is_OCNLMS s = false) by (unfold is_OCNLMS; destruct (o_ext s); auto; discriminate Hk').
      unfold pred_out. rewrite Hap, predict_plain by assumption. rewrite vdot_ok; [rewrite Hw; reflexivity|].
      rewrite Hlx. apply Hs.
    Qed.

    Lemma rls_one k : (k < length x)%nat ->
      J (S k) (W (S k)) = mu * J k (W k) + nth k e 0 * post k /\
      exists c, mu * c = (nth k e 0 - post k) * post k /\ 0 <= c /\ (c <= 0 -> post k = nth k e 0) /\
        mu ^ k * eps * (nth k e 0 - post k) ^ 2 <= c * normsq (nth k x []).
    Proof.
      intros Hk. destruct (W_err k Hk) as (He & Lx). pose proof (W_len k ltac:(lia)) as L1. pose proof (W_len (S k) ltac:(lia)) as L2.
      pose proof (new_filter_wf rng KRLS kw n o Hrng Hkw Hn Hnew) as (L0 & _).
      assert (Hxl : forall i, (i < k)%nat -> length (nth i x []) = n).
      { intros i Hi. unfold rows_of in Hx. rewrite Forall_forall in Hx. apply Hx, nth_In. lia. }
      set (u := vsub (W (S k)) (W k)). assert (Lu : length u = n) by (apply vsub_length; auto).
      assert (EW : forall t, length (vadd (W k) (vsc t u)) = n) by (intros; apply vadd_length; rewrite ?vsc_length; auto).
      assert (E1 : vadd (W k) (vsc 1 u) = W (S k)).
      { apply nth_ext0; [rewrite EW; auto|]. intros i _. rewrite nth_vadd by (rewrite vsc_length; congruence).
        rewrite nth_vsc. unfold u. rewrite nth_vsub by congruence. ring. }
      set (q := Rdot u (nth k x [])). set (ek := nth k e 0) in *.
      assert (Hq : post k = ek - q).
      { unfold post, error_after. change (nth (S k) (w ++ [o_w o']) []) with (W (S k)). rewrite <- E1.
        rewrite Rdot_vadd_l by (rewrite ?vsc_length; congruence). rewrite Rdot_vsc_l, He. fold q. ring. }
      set (B := sumn k (fun i => mu ^ (k - 1 - i) * (-2 * (nth i d 0 - Rdot (W k) (nth i x [])) * Rdot u (nth i x []))) + mu ^ k * eps * (2 * Rdot (vsub (W k) (o_w o)) u)).
      set (c := sumn k (fun i => mu ^ (k - 1 - i) * Rdot u (nth i x []) ^ 2) + mu ^ k * eps * normsq u).
      assert (HJ : forall t, J k (vadd (W k) (vsc t u)) = J k (W k) + t * B + t * t * c).
      { intros t. apply (cost_line mu eps (o_w o) d x n k (W k) u t); auto. }
      destruct (quad_min0 (J k (W k)) B c) as (HB & Hc).
      { intros t. rewrite <- HJ. apply (W_min k); [lia|apply EW]. }
      assert (HJ' : forall t, J k (vadd (W k) (vsc t u)) = J k (W k) + t * t * c) by (intros t; rewrite HJ, HB; ring).
      assert (HJ1 : forall t, J (S k) (vadd (W k) (vsc t u)) = mu * (J k (W k) + t * t * c) + (ek - t * q) ^ 2).
      { intros t. unfold J at 1. rewrite cost_S. fold (J k (vadd (W k) (vsc t u))). rewrite HJ'. f_equal.
        rewrite Rdot_vadd_l by (rewrite ?vsc_length; congruence). rewrite Rdot_vsc_l, He. fold q. ring. }
      assert (Hmc : mu * c = q * (ek - q)).
      { apply (quad_min1 (J k (W k))). intros t. rewrite <- !HJ1, E1. apply (W_min (S k)); [lia|apply EW]. }
      split.
      - rewrite <- E1, HJ1, Hq. replace (mu * (J k (W k) + 1 * 1 * c)) with (mu * J k (W k) + mu * c) by ring. rewrite Hmc. ring.
      - exists c. rewrite Hq. split; [rewrite Hmc; ring|]. split; [exact Hc|]. split.
        + intros Hc0. destruct (W_min k (W (S k)) ltac:(lia) L2) as (_ & Hu). 
          assert (HWW : W (S k) = W k). { apply Hu. rewrite <- E1, HJ'. lra. }
          assert (q = 0); [|lra]. unfold q, u. rewrite HWW. rewrite Rdot_vsub_l by congruence. ring.
        + replace (ek - (ek - q)) with q by ring.
          pose proof (Cauchy_Schwarz u (nth k x [])) as CS. fold q in CS.
          assert (Hp : 0 < mu ^ k * eps) by (apply Rmult_lt_0_compat; [apply pow_lt; exact Hmu|exact Heps]).
          assert (Hs : 0 <= sumn k (fun i => mu ^ (k - 1 - i) * Rdot u (nth i x []) ^ 2)).
          { apply sumn_nonneg. intros i _. apply Rmult_le_pos; [apply pow_le; unfold mu; lra|apply pow2_ge_0]. }
          pose proof (normsq_nonneg (nth k x [])) as Hnx.
          apply Rle_trans with (mu ^ k * eps * (normsq u * normsq (nth k x []))); [apply Rmult_le_compat_l; simpl; lra|].
          rewrite <- Rmult_assoc. apply Rmult_le_compat_r; [exact Hnx|]. unfold c. lra.
    Qed.
  End Run.

  (** *** C73.  After every number of samples, the smallest possible cost equals the discounted sum of the products of each
      error returned by run with the error of the same sample after learning from it. *)
  Theorem C73_errors_add_up : forall rng (kw : kwargs R) n (o o' : obj) eps R0 d x y e w,
    rng_ok rng -> sane_kw kw -> kw_n kw = Some (Z.of_nat n) -> new_filter rng KRLS kw = Ok o ->
    o_ext o = XRLS eps R0 -> 0 < eps -> 0 < o_mu o ->
    rows_of n x -> run d x o = (o', Ok (y, e, w)) ->
    forall k, (k <= length x)%nat ->
      let spent := sumn k (fun i => o_mu o ^ (k - 1 - i) * (nth i e 0 * error_after w (o_w o') d x i)) in
      cost (o_mu o) eps (o_w o) d x k (nth k (w ++ [o_w o']) []) = spent /\
      forall v, length v = n -> spent <= cost (o_mu o) eps (o_w o) d x k v.
  Proof.
    intros rng kw n o o' eps R0 d x y e w Hrng Hkw Hn Hnew HE Heps Hmu Hx Hrun k Hk spent.
    assert (H : cost (o_mu o) eps (o_w o) d x k (nth k (w ++ [o_w o']) []) = spent).
    { unfold spent. clear spent. induction k as [|k IH].
      - pose proof (new_filter_wf rng KRLS kw n o Hrng Hkw Hn Hnew) as Hwf.
        destruct (run_lengths solve n o o' d x y e w Hwf Hx Hrun) as (Hl & Hne & Hly & Hle & Hlw & Hy & He & Hw & HO & Hw').
        assert (E0 : nth 0 (w ++ [o_w o']) [] = o_w o).
        { rewrite app_nth1 by (rewrite Hlw; destruct x; [congruence|simpl; lia]). rewrite Hw.
          rewrite wtrace_nth; [reflexivity|exact Hl| |exact HO]. destruct x; [congruence|simpl; lia]. }
        rewrite E0. unfold cost. cbn [sumn pow].
        assert (E2 : normsq (vsub (o_w o) (o_w o)) = 0); [|rewrite E2; ring].
        rewrite normsq_vsub by reflexivity. unfold normsq. ring.
      - destruct (rls_one rng kw n o o' eps R0 d x y e w Hrng Hkw Hn Hnew HE Heps Hmu Hx Hrun k ltac:(lia)) as (H1 & _).
        change (cost (o_mu o) eps (o_w o) d x (S k) (nth (S k) (w ++ [o_w o']) [])) with
          (ls_cost (o_mu o) eps (o_w o) d x (S k) (wrow w (o_w o') (S k))).
        rewrite H1. change (ls_cost (o_mu o) eps (o_w o) d x k (wrow w (o_w o') k)) with
          (cost (o_mu o) eps (o_w o) d x k (nth k (w ++ [o_w o']) [])). rewrite (IH ltac:(lia)).
        cbn [sumn]. replace (S k - 1 - k)%nat with 0%nat by lia. rewrite <- sumn_scal. cbn [pow]. rewrite Rmult_1_l. f_equal.
        apply sumn_ext. intros i Hi. replace (S k - 1 - i)%nat with (S (k - 1 - i)) by lia. cbn [pow]. ring. }
    split; [exact H|]. intros v Lv. rewrite <- H.
    exact (proj1 (W_min rng kw n o o' eps R0 d x y e w Hrng Hkw Hn Hnew HE Heps Hmu Hx Hrun k v Hk Lv)).
  Qed.

  (** Learning from a sample shrinks its error without changing the sign, and never to 0 unless it was 0; for inputs with
      |x|^2 <= X the error left is at least the fraction s / (X + s), s = mu^(k+1) eps. *)
  Theorem C73_error_shrinks : forall rng (kw : kwargs R) n (o o' : obj) eps R0 d x y e w,
    rng_ok rng -> sane_kw kw -> kw_n kw = Some (Z.of_nat n) -> new_filter rng KRLS kw = Ok o ->
    o_ext o = XRLS eps R0 -> 0 < eps -> 0 < o_mu o ->
    rows_of n x -> run d x o = (o', Ok (y, e, w)) ->
    forall k, (k < length x)%nat ->
      let s := o_mu o ^ S k * eps in
      exists theta, s / (normsq (nth k x []) + s) <= theta <= 1 /\ 0 < theta /\
        error_after w (o_w o') d x k = theta * nth k e 0.
  Proof.
    intros rng kw n o o' eps R0 d x y e w Hrng Hkw Hn Hnew HE Heps Hmu Hx Hrun k Hk s.
    destruct (rls_one rng kw n o o' eps R0 d x y e w Hrng Hkw Hn Hnew HE Heps Hmu Hx Hrun k Hk) as (_ & c & Hc1 & Hc2 & Hc3 & Hc4).
    set (p := error_after w (o_w o') d x k) in *. set (ek := nth k e 0) in *. set (X := normsq (nth k x [])) in *.
    assert (HX : 0 <= X) by apply normsq_nonneg.
    assert (Hs : 0 < s) by (unfold s; apply Rmult_lt_0_compat; [apply pow_lt; exact Hmu|exact Heps]).
    assert (Hf : 0 < s / (X + s)) by (apply Rdiv_lt_0_compat; lra).
    assert (Hf1 : s / (X + s) <= 1). { apply Rmult_le_reg_r with (X + s); [lra|]. replace (s / (X + s) * (X + s)) with s by (field; lra). lra. }
    assert (Hs' : s * (ek - p) ^ 2 <= (ek - p) * p * X).
    { rewrite <- Hc1. unfold s. cbn [pow]. apply (Rmult_le_compat_l (o_mu o)) in Hc4; [|lra].
      eapply Rle_trans; [|eapply Rle_trans; [exact Hc4|]]; apply Req_le; ring. }
    destruct (Req_dec ek p) as [Hep|Hep].
    { exists 1. split; [split; [exact Hf1|lra]|]. split; [lra|]. rewrite Hep. ring. }
    assert (Hq2 : 0 < (ek - p) ^ 2). { replace ((ek - p) ^ 2) with (Rsqr (ek - p)) by (unfold Rsqr; ring). apply Rlt_0_sqr. lra. }
    assert (Hpos : 0 <= (ek - p) * p) by (rewrite <- Hc1; apply Rmult_le_pos; lra).
    assert (Hp0 : 0 < (ek - p) * p).
    { destruct Hpos as [|Hz]; [assumption|]. rewrite <- Hz in Hs'. nra. }
    assert (Hek : ek <> 0). { intros H0. rewrite H0 in Hp0. nra. }
    exists (p / ek). assert (E : p = p / ek * ek) by (field; exact Hek). set (th := p / ek) in *.
    assert (Hek2 : 0 < ek ^ 2) by (replace (ek ^ 2) with (Rsqr ek) by (unfold Rsqr; ring); apply Rlt_0_sqr; exact Hek).
    assert (Hth : 0 < (1 - th) * th).
    { replace ((ek - p) * p) with (ek ^ 2 * ((1 - th) * th)) in Hp0 by (rewrite E; ring).
      apply Rmult_lt_reg_l with (ek ^ 2); [exact Hek2|lra]. }
    assert (Hth0 : 0 < th < 1) by (split; nra).
    split; [split; [|lra]|split; [lra|exact E]].
    assert (H5 : s * (1 - th) <= th * X).
    { apply Rmult_le_reg_l with (ek ^ 2 * (1 - th)); [apply Rmult_lt_0_compat; lra|].
      replace (s * (ek - p) ^ 2) with (ek ^ 2 * (1 - th) * (s * (1 - th))) in Hs' by (rewrite E; ring).
      replace ((ek - p) * p * X) with (ek ^ 2 * (1 - th) * (th * X)) in Hs' by (rewrite E; ring). exact Hs'. }
    apply Rmult_le_reg_r with (X + s); [lra|]. replace (s / (X + s) * (X + s)) with s by (field; lra). lra.
  Qed.

  (** Without forgetting: for inputs with |x|^2 <= X the energy of all errors is at most 1 + X / eps times the cost of any
      fixed weights, whatever the targets. *)
  Theorem C73_total_error : forall rng (kw : kwargs R) n (o o' : obj) eps R0 d x y e w X v,
    rng_ok rng -> sane_kw kw -> kw_n kw = Some (Z.of_nat n) -> new_filter rng KRLS kw = Ok o ->
    o_ext o = XRLS eps R0 -> 0 < eps -> o_mu o = 1 ->
    rows_of n x -> run d x o = (o', Ok (y, e, w)) ->
    (forall k, (k < length x)%nat -> normsq (nth k x []) <= X) -> length v = n ->
    sumn (length x) (fun k => nth k e 0 ^ 2) <=
      (1 + X / eps) * (sumn (length x) (fun k => (nth k d 0 - Rdot v (nth k x [])) ^ 2) + eps * normsq (vsub v (o_w o))).
  Proof.
    intros rng kw n o o' eps R0 d x y e w X v Hrng Hkw Hn Hnew HE Heps Hmu1 Hx Hrun HX Lv.
    assert (Hmu : 0 < o_mu o) by lra.
    destruct (C73_errors_add_up rng kw n o o' eps R0 d x y e w Hrng Hkw Hn Hnew HE Heps Hmu Hx Hrun (length x) (le_n _)) as (_ & H).
    specialize (H v Lv). unfold cost in H. rewrite Hmu1 in H.
    assert (E1 : forall f, sumn (length x) (fun i => 1 ^ (length x - 1 - i) * f i) = sumn (length x) f).
    { intros f. apply sumn_ext. intros i _. rewrite pow1. ring. }
    rewrite (E1 (fun i => nth i e 0 * error_after w (o_w o') d x i)) in H.
    rewrite (E1 (fun i => (nth i d 0 - Rdot v (nth i x [])) ^ 2)), pow1, Rmult_1_l in H.
    assert (HX0 : 0 <= X).
    { destruct x as [|x0 xs]; [destruct d; discriminate Hrun|]. pose proof (HX 0%nat ltac:(simpl; lia)) as H0.
      pose proof (normsq_nonneg (nth 0 (x0 :: xs) [])). lra. }
    eapply Rle_trans; [|apply Rmult_le_compat_l; [|exact H]].
    2: { assert (0 <= X / eps) by (apply Rmult_le_pos; [lra|apply Rlt_le, Rinv_0_lt_compat; lra]). lra. }
    rewrite <- sumn_scal. apply sumn_le. intros k Hk.
    destruct (C73_error_shrinks rng kw n o o' eps R0 d x y e w Hrng Hkw Hn Hnew HE Heps Hmu Hx Hrun k Hk) as (th & (Ht1 & Ht2) & Ht3 & ->).
    rewrite Hmu1, pow1, Rmult_1_l in Ht1. specialize (HX k Hk). pose proof (normsq_nonneg (nth k x [])) as Hx0.
    assert (H1 : eps / (X + eps) <= th).
    { eapply Rle_trans; [|exact Ht1]. apply Rmult_le_compat_l; [lra|]. apply Rinv_le_contravar; lra. }
    assert (H2 : 1 <= (1 + X / eps) * th).
    { apply Rle_trans with ((1 + X / eps) * (eps / (X + eps))); [apply Req_le; field; split; lra|].
      apply Rmult_le_compat_l; [|exact H1]. assert (0 <= X / eps) by (apply Rmult_le_pos; [lra|apply Rlt_le, Rinv_0_lt_compat; lra]). lra. }
    replace ((1 + X / eps) * (nth k e 0 * (th * nth k e 0))) with ((1 + X / eps) * th * nth k e 0 ^ 2) by ring.
    rewrite <- (Rmult_1_l (nth k e 0 ^ 2)) at 1. apply Rmult_le_compat_r; [apply pow2_ge_0|exact H2].
  Qed.

  (** the hypotheses are met, without forgetting, by targets that no fixed weights fit *)
  Definition xs73 : list rvec := [[1; 0]; [1; 0]; [0; 1]].
  Example C73_hypotheses : exists (o o' : obj) R0 y e w,
    sane_kw (kw55 1) /\ kw_n (kw55 1) = Some (Z.of_nat 2) /\ new_filter rngR KRLS (kw55 1) = Ok o /\
    o_ext o = XRLS 1 R0 /\ o_mu o = 1 /\ rows_of 2 xs73 /\
    run [3; 5; 1] xs73 o = (o', Ok (y, e, w)) /\ (forall k, (k < length xs73)%nat -> normsq (nth k xs73 []) <= 1) /\
    forall v, length v = 2%nat -> 2 <= sumn 3 (fun k => (nth k [3; 5; 1] 0 - Rdot v (nth k xs73 [])) ^ 2).
  Proof.
    assert (Hnew : exists o : obj, new_filter rngR KRLS (kw55 1) = Ok o /\ o_mu o = 1 /\ exists R0, o_ext o = XRLS 1 R0).
    { destruct (new_filter rngR KRLS (kw55 1)) as [o|] eqn:Eo; revert Eo; unfold new_filter; cbn; rewrite Reqb_1_0; [|discriminate].
      intros [= <-]. eexists. split; [reflexivity|]. split; [reflexivity|]. eexists. reflexivity. }
    destruct Hnew as (o & Ho & Hm & R0 & HE).
    pose proof (kwE_reachable0 solve KRLS 1 [0; 0] (Some 1) None o Ho) as Hr. cbn [length] in Hr.
    assert (Hx : rows_of 2 xs73) by (repeat constructor).
    destruct (run_exists solve 2 o [3; 5; 1] xs73 Hr Hx eq_refl) as (o' & y & e & w & Er).
    - discriminate.
    - intros ex. unfold soft_exn. rewrite HE, Hm. intros (_ & He). cbn in He. unfold Reqb in He. destruct (Req_EM_T 1 0); [lra|discriminate].
    - exists o, o', R0, y, e, w. split; [split; intros ? Hs; discriminate Hs|]. split; [reflexivity|]. split; [exact Ho|]. split; [exact HE|].
      split; [exact Hm|]. split; [exact Hx|]. split; [exact Er|]. split.
      + intros [|[|[|k]]] Hk; unfold normsq; simpl in *; try lia; lra.
      + intros [|a [|b [|]]] Lv; try discriminate. unfold xs73. simpl.
        assert (0 <= (a - 4) * (a - 4)) by apply Rle_0_sqr. assert (0 <= (1 - b) * (1 - b)) by apply Rle_0_sqr. lra.
  Qed.
End S.
