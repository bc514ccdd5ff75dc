(** C90: how much RLS still knows about a direction, and what one sample along it does (exact real arithmetic). *)
From Coq Require Import Reals Lra Psatz.
From Verif Require Import Py Num Numpy Filters Registry Spec StructProofs RunProofs Reach RVec RFilter PropsStability Steps PropsAlgebra RMat PropsRLS PropsRLSRate PropsRLSCost.
Open Scope R_scope.

(** ** Specification.  What the first k samples, older ones discounted by mu, and the initial regularisation say about v *)
Definition knowledge (mu eps : R) (x : list rvec) (k : nat) (v : rvec) : R := mu ^ k * eps * normsq v + excitation mu x k v.

Section S.
  Variable solve : list rvec -> list rvec -> option (list rvec).
  #[local] Hint Extern 0 (Num R) => exact (RNum solve) : typeclass_instances.
  Notation obj := (obj R).

  Section Op.
    Variables (mu eps : R) (x : list rvec) (n : nat).
    Hypothesis Hmu : 0 < mu.
    Hypothesis Heps : 0 < eps.
    Hypothesis Hx : forall i, (i < length x)%nat -> length (nth i x []) = n.
    Notation A := (Aop mu eps x).

    Lemma excitation_S k v : excitation mu x (S k) v = mu * excitation mu x k v + Rdot v (nth k x []) ^ 2.
    Proof.
      unfold excitation. cbn [sumn]. replace (S k - 1 - k)%nat with 0%nat by lia. cbn [pow]. rewrite <- sumn_scal, Rmult_1_l. f_equal.
      apply sumn_ext. intros i Hi. replace (S k - 1 - i)%nat with (S (k - 1 - i)) by lia. cbn [pow]. ring.
    Qed.
    Lemma knowledge_A k v : (k <= length x)%nat -> length v = n -> Rdot v (A k v) = knowledge mu eps x k v.
    Proof.
      intros Hk Lv. induction k as [|k IH]; unfold knowledge.
      - cbn [Aop pow]. rewrite Rdot_vsc_r. unfold excitation. cbn [sumn]. unfold normsq. ring.
      - cbn [Aop]. pose proof (A_len mu eps x n Hx k v ltac:(lia) Lv) as L1. pose proof (Hx k ltac:(lia)) as L2.
        rewrite Rdot_vadd_r by (rewrite ?vsc_length; congruence).
        rewrite !Rdot_vsc_r, IH by lia. rewrite excitation_S. unfold knowledge. rewrite (Rdot_comm (nth k x []) v). cbn [pow]. ring.
    Qed.
    (** Cauchy-Schwarz for the form A *)
    Lemma A_CS k u v : (k <= length x)%nat -> length u = n -> length v = n -> Rdot u (A k v) * Rdot u (A k v) <= Rdot u (A k u) * Rdot v (A k v).
    Proof.
      intros Hk Lu Lv. set (a := Rdot u (A k u)). set (b := Rdot u (A k v)). set (c := Rdot v (A k v)).
      assert (P : forall t s, length t = n -> s = Rdot t (A k t) -> 0 <= s).
      { intros t s Lt ->. eapply Rle_trans; [|apply (A_pos mu eps x n Hx k t Hmu Hk Lt)]. apply Rmult_le_pos; [|apply normsq_nonneg].
        apply Rmult_le_pos; [apply pow_le|]; lra. }
      pose proof (P u a Lu eq_refl) as Ha. pose proof (P v c Lv eq_refl) as Hc.
      assert (Q : 0 <= c * (c * a - b * b)).
      { set (t := vsub (vsc c u) (vsc b v)). assert (Lt : length t = n) by (apply vsub_length; rewrite vsc_length; auto).
        apply (P t _ Lt). unfold t. rewrite (A_vsub mu eps x n Hx) by (rewrite ?vsc_length; auto). rewrite !(A_vsc mu eps x n Hx) by auto.
        pose proof (A_len mu eps x n Hx k u Hk Lu) as L1. pose proof (A_len mu eps x n Hx k v Hk Lv) as L2.
        assert (L3 : length (vsub (vsc c (A k u)) (vsc b (A k v))) = n) by (apply vsub_length; rewrite vsc_length; auto).
        rewrite Rdot_vsub_l by (rewrite ?vsc_length; congruence). rewrite !Rdot_vsub_r by (rewrite ?vsc_length; congruence).
        rewrite !Rdot_vsc_l, !Rdot_vsc_r. rewrite (A_sym mu eps x n Hx k v u) by auto. rewrite (Rdot_comm (A k v) u). fold a b c. ring. }
      destruct (Req_dec c 0) as [E|E].
      - (* c = 0 forces v = 0 *)
        pose proof (A_pos mu eps x n Hx k v Hmu Hk Lv) as B. fold c in B. rewrite E in B |- *.
        assert (0 < mu ^ k * eps) by (apply Rmult_lt_0_compat; [apply pow_lt|]; lra).
        assert (N : normsq v = 0). { pose proof (normsq_nonneg v). nra. }
        assert (b = 0); [|subst b; nra]. unfold b. rewrite (A_sym mu eps x n Hx k u v) by auto.
        pose proof (Cauchy_Schwarz (A k u) v) as C. rewrite N in C. nra.
      - assert (0 < c) by lra. nra.
    Qed.
  End Op.

  Section Run.
    Variables (rng : nat -> rvec) (kw : kwargs R) (n : nat) (o o' : obj) (eps : R) (R0 : list rvec) (d : rvec) (x : list rvec) (y e : rvec) (w : list rvec).
    Hypotheses (Hrng : rng_ok rng) (Hkw : sane_kw kw) (Hn : kw_n kw = Some (Z.of_nat n)) (Hnew : new_filter rng KRLS kw = Ok o)
      (HE : o_ext o = XRLS eps R0) (Heps : 0 < eps) (Hmu : 0 < o_mu o) (Hx : rows_of n x) (Hrun : run d x o = (o', Ok (y, e, w))).
    Let W k := wrow w (o_w o') k.
    Let mu := o_mu o.

    Lemma Hxl : forall i, (i < length x)%nat -> length (nth i x []) = n.
    Proof. intros i Hi. unfold rows_of in Hx. rewrite Forall_forall in Hx. apply Hx, nth_In, Hi. Qed.

    (** one step, through the inverse q of A_(k+1) at x_k *)
    Lemma rls_move k : (k < length x)%nat -> exists (q : rvec) (Rn : list rvec), length q = n /\ inverse_of solve mu eps x n (S k) Rn /\ q = mv Rn (nth k x []) /\
      Aop mu eps x (S k) q = nth k x [] /\ W (S k) = vadd (W k) (vsc (nth k e 0) q) /\ length (W k) = n /\
      nth k e 0 = nth k d 0 - Rdot (W k) (nth k x []) /\ nth k y 0 = Rdot (W k) (nth k x []).
    Proof.
      intros Hk. pose proof (new_filter_wf rng KRLS kw n o Hrng Hkw Hn Hnew) as Hwf.
      destruct (new_RLS solve rng kw n o Hnew Hn) as (eps' & E'). assert (eps' = eps) by (rewrite E' in HE; injection HE; auto). subst eps'.
      destruct (run_lengths solve n o o' d x y e w Hwf Hx Hrun) as (Hl & _).
      destruct (rls_states solve n o d x eps Hwf Hx Hl E' Hmu Heps k ltac:(lia)) as (Hs & Hm & Rk & Es & HI & _).
      destruct (run_step solve n o o' d x y e w k Hwf Hx Hrun Hk) as (s & s' & _ & _ & Ess & Ess' & Ha & Hw & Hw' & Hy & He & Lx).
      rewrite <- Ess in Hs, Hm, Es.
      assert (Hnz : neqb (o_mu s) n0 = false).
      { rewrite Hm. change (Reqb (o_mu o) 0 = false). unfold Reqb. destruct (Req_EM_T (o_mu o) 0); [lra|reflexivity]. }
      rewrite (adapt_RLS n s _ _ eps Rk Hs Lx Es Hnz) in Ha. rewrite Hm in Ha. fold mu in Ha.
      pose proof (inverse_S solve mu eps x n Hmu Heps Hxl k Rk Hk HI) as HI'.
      set (Rn := rls_R mu Rk (nth k x [])) in *. set (q := mv Rn (nth k x [])) in *.
      assert (Lq : length q = n) by (unfold q; rewrite (mv_len solve); apply HI').
      assert (LW : length (W k) = n) by (unfold W; rewrite <- Hw; apply Hs).
      assert (Hap : is_AP s = false) by (unfold is_AP; rewrite Es; reflexivity). assert (Hoc : is_OCNLMS s = false) by (unfold is_OCNLMS; rewrite Es; reflexivity).
      assert (Ey : nth k y 0 = Rdot (W k) (nth k x [])).
      { rewrite Hy. unfold pred_out. rewrite Hap, predict_plain by exact Hoc. destruct Hs as (Ls & _). rewrite vdot_ok by congruence. unfold W. rewrite <- Hw. reflexivity. }
      exists q, Rn. split; [exact Lq|]. split; [exact HI'|]. split; [reflexivity|]. split; [apply HI'; exact Lx|].
      split; [|split; [exact LW|split; [rewrite <- Ey; exact He|exact Ey]]].
      rewrite He, Ey. injection Ha as Ha. unfold W at 1. rewrite <- Hw', <- Ha. cbn [set_w set_ext o_w].
      unfold W. rewrite <- Hw. unfold vadd, vsc. change (@nadd R _) with Rplus. f_equal. apply map_ext. intros a. apply Rmult_comm.
    Qed.

    Lemma error_left k : (k < length x)%nat -> 0 < normsq (nth k x []) ->
      let K := mu * knowledge mu eps x k (nth k x []) in
      exists theta, 0 <= theta <= K / (K + normsq (nth k x []) ^ 2) /\ error_after w (o_w o') d x k = theta * nth k e 0.
    Proof.
      intros Hk Hv K. assert (Hmu' : 0 < mu) by exact Hmu. set (v := nth k x []) in *. destruct (rls_move k Hk) as (q & Rn & Lq & HI & Eq & EA & EW & LW & Ee & _). fold v in EA, Ee, Eq.
      assert (Lv : length v = n) by (apply Hxl, Hk).
      exists (1 - Rdot q v). set (b := Rdot q v).
      assert (Ep : error_after w (o_w o') d x k = (1 - b) * nth k e 0).
      { unfold error_after. fold v. change (nth (S k) (w ++ [o_w o']) []) with (W (S k)). rewrite EW.
        rewrite Rdot_vadd_l by (rewrite vsc_length; congruence). rewrite Rdot_vsc_l. fold b. rewrite Ee. ring. }
      split; [|exact Ep].
      (* the form at q *)
      assert (Lk : length (Aop mu eps x k q) = n) by (apply (A_len mu eps x n Hxl); [lia|exact Lq]).
      assert (F1 : mu * Rdot q (Aop mu eps x k q) + b * b = b).
      { transitivity (Rdot q (Aop mu eps x (S k) q)); [|rewrite EA; reflexivity]. cbn [Aop]. fold v.
        rewrite Rdot_vadd_r by (rewrite ?vsc_length; congruence). rewrite !Rdot_vsc_r. rewrite (Rdot_comm v q). fold b. ring. }
      assert (F2 : 0 <= Rdot q (Aop mu eps x k q)).
      { eapply Rle_trans; [|apply (A_pos mu eps x n Hxl k q Hmu ltac:(lia) Lq)]. apply Rmult_le_pos; [|apply normsq_nonneg].
        apply Rmult_le_pos; [apply pow_le|]; lra. }
      assert (F3 : 0 <= mu * Rdot q (Aop mu eps x k q)) by (apply Rmult_le_pos; [unfold mu; lra|exact F2]).
      assert (Hb : 0 <= b <= 1) by nra.
      split; [lra|].
      assert (G : normsq v ^ 2 <= (K + normsq v ^ 2) * b).
      { pose proof (A_CS mu eps x n Hmu Heps Hxl (S k) v q Hk Lv Lq) as C. rewrite EA in C.
        rewrite (knowledge_A mu eps x n Hxl (S k) v Hk Lv) in C. fold b in C. unfold knowledge in C. rewrite excitation_S in C. fold v in C.
        change (Rdot v v) with (normsq v) in C. unfold K, knowledge. cbn [pow] in C |- *. eapply Rle_trans; [|eapply Rle_trans; [exact C|]]; apply Req_le; ring. }
      assert (HK : 0 <= K).
      { unfold K. apply Rmult_le_pos; [unfold mu; lra|]. rewrite <- (knowledge_A mu eps x n Hxl k v ltac:(lia) Lv).
        eapply Rle_trans; [|apply (A_pos mu eps x n Hxl k v Hmu ltac:(lia) Lv)]. apply Rmult_le_pos; [|apply normsq_nonneg]. apply Rmult_le_pos; [apply pow_le|]; lra. }
      assert (Hv2 : 0 < normsq v ^ 2) by (apply pow_lt; exact Hv).
      apply Rmult_le_reg_r with (K + normsq v ^ 2); [lra|]. replace (K / (K + normsq v ^ 2) * (K + normsq v ^ 2)) with K by (field; lra). lra.
    Qed.

    (** inputs orthogonal to v leave the weights along v alone, as long as nothing else was seen *)
    Lemma untouched v k : length v = n -> (k <= length x)%nat -> (forall i, (i < k)%nat -> Rdot v (nth i x []) = 0) ->
      Aop mu eps x k v = vsc (mu ^ k * eps) v /\ Rdot (W k) v = Rdot (o_w o) v.
    Proof.
      intros Lv Hk H0. induction k as [|k IH].
      - split; [cbn [Aop pow]; rewrite Rmult_1_l; reflexivity|].
        pose proof (new_filter_wf rng KRLS kw n o Hrng Hkw Hn Hnew) as Hwf.
        destruct (run_lengths solve n o o' d x y e w Hwf Hx Hrun) as (Hl & Hne & _).
        assert (HN : (0 < length x)%nat) by (destruct x; [congruence|cbn; lia]).
        destruct (run_step solve n o o' d x y e w 0 Hwf Hx Hrun HN) as (s & s' & _ & _ & Ess & _ & _ & Hw & _). unfold W. rewrite <- Hw, Ess.
        unfold state_after. cbn [firstn adapt_all fst ret]. reflexivity.
      - destruct IH as (I1 & I2); [lia|intros i Hi; apply H0; lia|].
        assert (EA' : Aop mu eps x (S k) v = vsc (mu ^ S k * eps) v).
        { cbn [Aop]. rewrite I1. rewrite Rdot_comm, (H0 k ltac:(lia)). apply nth_ext0.
          - rewrite (vadd_length _ _ n); rewrite ?vsc_length; auto. apply Hxl. lia.
          - intros i _. rewrite nth_vadd by (rewrite !vsc_length; rewrite Hxl by lia; exact Lv). rewrite !nth_vsc. cbn [pow]. ring. }
        split; [exact EA'|].
        destruct (rls_move k ltac:(lia)) as (q & Rn & Lq & (HR & Hsym & H1 & H2) & Eq & EA & EW & LW & _).
        rewrite EW, Rdot_vadd_l by (rewrite vsc_length; congruence). rewrite Rdot_vsc_l, I2.
        assert (Z : Rdot q v = 0); [|rewrite Z; ring].
        assert (P : 0 < mu ^ S k * eps) by (apply Rmult_lt_0_compat; [apply pow_lt; exact Hmu|exact Heps]).
        assert (Em : vsc (mu ^ S k * eps) (mv Rn v) = v) by (rewrite <- (mv_vsc solve), <- EA'; apply H2, Lv).
        assert (Lx : length (nth k x []) = n) by (apply Hxl; lia).
        assert (D : Rdot (nth k x []) (vsc (mu ^ S k * eps) (mv Rn v)) = 0) by (rewrite Em, Rdot_comm; apply H0; lia).
        rewrite Rdot_vsc_r, (Hsym _ _ Lx Lv), <- Eq in D. apply Rmult_integral in D as [D|D]; [lra|exact D].
    Qed.
  End Run.

  (** *** C90.  The error that a sample (d, v) still has after RLS has learned from it is a fraction theta of the error before,
      and theta is at most K / (K + |v|^4), where K / mu is what the filter knew about the direction v. *)
  Theorem C90_error_left : forall rng (kw : kwargs R) n (o o' : obj) eps R0 d x y e w,
    rng_ok rng -> sane_kw kw -> kw_n kw = Some (Z.of_nat n) -> new_filter rng KRLS kw = Ok o ->
    o_ext o = XRLS eps R0 -> 0 < eps -> 0 < o_mu o ->
    rows_of n x -> run d x o = (o', Ok (y, e, w)) ->
    forall k, (k < length x)%nat -> let v := nth k x [] in 0 < normsq v ->
      let K := o_mu o * knowledge (o_mu o) eps x k v in
      exists theta, 0 <= theta <= K / (K + normsq v ^ 2) /\ error_after w (o_w o') d x k = theta * nth k e 0.
  Proof. intros. eapply error_left; eauto. Qed.

  (** Whatever the filter learned before sample m: if no input since then has a component along v, the knowledge about v has
      shrunk by mu^(k-m), so with mu < 1 a single sample along v sets the prediction up to that fraction of its error. *)
  Theorem C90_forgotten_direction : forall rng (kw : kwargs R) n (o o' : obj) eps R0 d x y e w,
    rng_ok rng -> sane_kw kw -> kw_n kw = Some (Z.of_nat n) -> new_filter rng KRLS kw = Ok o ->
    o_ext o = XRLS eps R0 -> 0 < eps -> 0 < o_mu o ->
    rows_of n x -> run d x o = (o', Ok (y, e, w)) ->
    forall m k, (m <= k)%nat -> (k < length x)%nat -> let v := nth k x [] in 0 < normsq v ->
      (forall i, (m <= i < k)%nat -> Rdot v (nth i x []) = 0) ->
      Rabs (error_after w (o_w o') d x k) <= o_mu o ^ (k - m + 1) * (knowledge (o_mu o) eps x m v / normsq v ^ 2) * Rabs (nth k e 0).
  Proof.
    intros rng kw n o o' eps R0 d x y e w Hrng Hkw Hn Hnew HE Heps Hmu Hx Hrun m k Hmk Hk v Hv H0.
    destruct (C90_error_left rng kw n o o' eps R0 d x y e w Hrng Hkw Hn Hnew HE Heps Hmu Hx Hrun k Hk Hv) as (th & Hth & E). fold v in Hth.
    assert (EK : forall j, (m + j <= k)%nat -> knowledge (o_mu o) eps x (m + j) v = o_mu o ^ j * knowledge (o_mu o) eps x m v).
    { induction j as [|j IH]; intros Hj; [rewrite Nat.add_0_r; cbn [pow]; ring|]. rewrite Nat.add_succ_r. unfold knowledge at 1. rewrite excitation_S.
      rewrite H0 by lia. specialize (IH ltac:(lia)). unfold knowledge at 1 in IH. cbn [pow]. rewrite (Rmult_assoc (o_mu o) (o_mu o ^ j)), <- IH. ring. }
    set (K := o_mu o * knowledge (o_mu o) eps x k v) in *.
    assert (EK' : K = o_mu o ^ (k - m + 1) * knowledge (o_mu o) eps x m v).
    { unfold K. replace k with (m + (k - m))%nat at 1 by lia. rewrite EK by lia. rewrite Nat.add_1_r. cbn [pow]. ring. }
    assert (Hn2 : 0 < normsq v ^ 2) by (apply pow_lt; exact Hv).
    assert (HK : 0 <= K).
    { unfold K, knowledge. apply Rmult_le_pos; [lra|]. apply Rplus_le_le_0_compat; [apply Rmult_le_pos; [apply Rmult_le_pos; [apply pow_le|]; lra|apply normsq_nonneg]|].
      unfold excitation. apply sumn_nonneg. intros i _. apply Rmult_le_pos; [apply pow_le; lra|apply pow2_ge_0]. }
    rewrite E, Rabs_mult, (Rabs_pos_eq th) by lra. apply Rmult_le_compat_r; [apply Rabs_pos|].
    replace (o_mu o ^ (k - m + 1) * (knowledge (o_mu o) eps x m v / normsq v ^ 2)) with (K / normsq v ^ 2) by (rewrite EK'; field; lra).
    eapply Rle_trans; [apply Hth|]. unfold Rdiv. apply Rmult_le_compat_l; [exact HK|]. apply Rinv_le_contravar; lra.
  Qed.

  (** A direction never seen so far: the prediction for v is still that of the initial weights, and the first sample along v
      leaves exactly the fraction s / (s + |v|^2) of its error, s = mu^(k+1) eps. *)
  Theorem C90_unseen_direction : forall rng (kw : kwargs R) n (o o' : obj) eps R0 d x y e w,
    rng_ok rng -> sane_kw kw -> kw_n kw = Some (Z.of_nat n) -> new_filter rng KRLS kw = Ok o ->
    o_ext o = XRLS eps R0 -> 0 < eps -> 0 < o_mu o ->
    rows_of n x -> run d x o = (o', Ok (y, e, w)) ->
    forall k, (k < length x)%nat -> let v := nth k x [] in
      (forall i, (i < k)%nat -> Rdot v (nth i x []) = 0) ->
      let s := o_mu o ^ S k * eps in
      nth k y 0 = Rdot (o_w o) v /\
      error_after w (o_w o') d x k = s / (s + normsq v) * (nth k d 0 - Rdot (o_w o) v).
  Proof.
    intros rng kw n o o' eps R0 d x y e w Hrng Hkw Hn Hnew HE Heps Hmu Hx Hrun k Hk v H0 s.
    pose proof (Hxl n x Hx) as Hlx. assert (Lv : length v = n) by (apply Hlx, Hk).
    destruct (untouched rng kw n o o' eps R0 d x y e w Hrng Hkw Hn Hnew HE Heps Hmu Hx Hrun v k Lv ltac:(lia) H0) as (HA & HW).
    destruct (rls_move rng kw n o o' eps R0 d x y e w Hrng Hkw Hn Hnew HE Heps Hmu Hx Hrun k Hk) as (q & Rn & Lq & HI & Eq & EA & EW & LW & Ee & Ey).
    fold v in Eq, EA, Ee, Ey. rewrite HW in Ee, Ey. split; [exact Ey|].
    assert (Hs : 0 < s) by (unfold s; apply Rmult_lt_0_compat; [apply pow_lt; exact Hmu|exact Heps]). pose proof (normsq_nonneg v) as HN.
    assert (EA' : Aop (o_mu o) eps x (S k) v = vsc (s + normsq v) v).
    { cbn [Aop]. fold v. rewrite HA. apply nth_ext0; [rewrite (vadd_length _ _ n); rewrite ?vsc_length; auto|].
      intros i _. rewrite nth_vadd by (rewrite !vsc_length; reflexivity). rewrite !nth_vsc. unfold s, normsq. cbn [pow]. ring. }
    assert (Eq2 : vsc (s + normsq v) q = v). { rewrite Eq, <- (mv_vsc solve), <- EA'. apply HI, Lv. }
    assert (Eb : (s + normsq v) * Rdot q v = normsq v) by (rewrite <- Rdot_vsc_l, Eq2; reflexivity).
    unfold error_after. fold v. change (nth (S k) (w ++ [o_w o']) []) with (wrow w (o_w o') (S k)). rewrite EW.
    rewrite Rdot_vadd_l by (rewrite vsc_length; congruence). rewrite Rdot_vsc_l, HW, Ee. set (E := nth k d 0 - Rdot (o_w o) v).
    assert (Eb' : Rdot q v = normsq v / (s + normsq v)). { apply Rmult_eq_reg_l with (s + normsq v); [|lra]. rewrite Eb. field. lra. }
    rewrite Eb'. unfold E. field. lra.
  Qed.

  (** mu = 1/2, eps = 1: the first input direction comes back at the end; one sample then leaves at most 7/64 of its error,
      although two samples had agreed on another value *)
  Definition xs90 : list rvec := [[1; 0]; [1; 0]; [0; 1]; [0; 2]; [0; 1]; [1; 0]].
  Example C90_hypotheses : exists (o o' : obj) R0 y e w,
    sane_kw (kw55 (1 / 2)) /\ kw_n (kw55 (1 / 2)) = Some (Z.of_nat 2) /\ new_filter rngR KRLS (kw55 (1 / 2)) = Ok o /\
    o_ext o = XRLS 1 R0 /\ o_mu o = 1 / 2 /\ rows_of 2 xs90 /\
    run [3; 3; 1; 1; 1; 7] xs90 o = (o', Ok (y, e, w)) /\
    (forall i, (2 <= i < 5)%nat -> Rdot (nth 5 xs90 []) (nth i xs90 []) = 0) /\ normsq (nth 5 xs90 []) = 1 /\
    knowledge (1 / 2) 1 xs90 2 (nth 5 xs90 []) = 7 / 4 /\
    (forall i, (i < 2)%nat -> Rdot (nth 2 xs90 []) (nth i xs90 []) = 0).
  Proof.
    assert (Hnew : exists o : obj, new_filter rngR KRLS (kw55 (1 / 2)) = Ok o /\ o_mu o = 1 / 2 /\ exists R0, o_ext o = XRLS 1 R0).
    { destruct (new_filter rngR KRLS (kw55 (1 / 2))) as [o|] eqn:Eo; revert Eo; unfold new_filter; cbn; rewrite Reqb_1_0; [|discriminate].
      intros [= <-]. eexists. split; [reflexivity|]. split; [reflexivity|]. eexists. reflexivity. }
    destruct Hnew as (o & Ho & Hm & R0 & HE).
    pose proof (kwE_reachable0 solve KRLS (1 / 2) [0; 0] (Some 1) None o Ho) as Hr. cbn [length] in Hr.
    assert (Hx : rows_of 2 xs90) by (repeat constructor).
    destruct (run_exists solve 2 o [3; 3; 1; 1; 1; 7] xs90 Hr Hx eq_refl) as (o' & y & e & w & Er).
    - discriminate.
    - intros ex. unfold soft_exn. rewrite HE, Hm. intros (_ & He). cbn in He. unfold Reqb in He. destruct (Req_EM_T (1 / 2) 0); [lra|discriminate].
    - exists o, o', R0, y, e, w. split; [split; intros ? Hs; discriminate Hs|]. split; [reflexivity|]. split; [exact Ho|]. split; [exact HE|].
      split; [exact Hm|]. split; [exact Hx|]. split; [exact Er|]. split; [|split; [|split]].
      + intros [|[|[|[|[|i]]]]] Hi; try lia; cbn; lra.
      + unfold normsq. cbn. lra.
      + unfold knowledge, excitation, normsq. cbn. lra.
      + intros [|[|i]] Hi; try lia; cbn; lra.
  Qed.
End S.
