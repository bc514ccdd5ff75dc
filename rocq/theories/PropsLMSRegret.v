(** C124: the regret of LMS with a tuned step grows like the square root of the number of samples, and no step does better
    (exact real arithmetic). *)
From Coq Require Import Reals Lra Lia Psatz.
From Verif Require Import Py Num Numpy Filters Registry Spec StructProofs RunProofs Reach RVec RFilter PropsStability Steps PropsAlgebra RMat PropsRLS PropsRLSRate PropsTracking PropsRLSTrack PropsConverge PropsNotch PropsRLSRegret.
Open Scope R_scope.

(** squared errors of the fixed weights v on the data *)
Definition loss (d : rvec) (x : list rvec) (v : rvec) : R := sumn (length x) (fun k => (nth k d 0 - Rdot v (nth k x [])) ^ 2).
Lemma loss_nonneg d x v : 0 <= loss d x v.
Proof. apply sumn_nonneg. intros; apply pow2_ge_0. Qed.

(** one sample: the weighted inequality behind both theorems *)
Lemma step_ineq g e r q : 0 <= g -> g * q < 1 -> g * e ^ 2 <= 2 * g * e * (e - r) - g ^ 2 * e ^ 2 * q + g * (r ^ 2 / (1 - g * q)).
Proof.
  intros Hg Hq. set (b := 1 - g * q). assert (Hb : 0 < b) by (unfold b; lra).
  assert (H : 2 * g * e * (e - r) - g ^ 2 * e ^ 2 * q + g * (r ^ 2 / b) - g * e ^ 2 = g * ((b * e - r) ^ 2 / b)) by (unfold b; field; fold b; lra).
  assert (0 <= g * ((b * e - r) ^ 2 / b)); [|lra]. apply Rmult_le_pos; [exact Hg|]. apply Rmult_le_pos; [apply pow2_ge_0|left; apply Rinv_0_lt_compat; exact Hb].
Qed.

Section S.
  Variable solve : list rvec -> list rvec -> option (list rvec).
  #[local] Hint Extern 0 (Num R) => exact (RNum solve) : typeclass_instances.
  Notation obj := (obj R).

  (** the energy argument, for the step size g (x) *)
  Lemma energy_bound n (o o' : obj) d x y e w v (g : rvec -> R) (c : R) :
    reachable n o -> rows_of n x -> (forall e0 u, textbook (o_ext o) (o_mu o) e0 u = Some (vsc (g u * e0) u)) -> length v = n ->
    run d x o = (o', Ok (y, e, w)) -> (forall u, In u x -> 0 <= g u /\ g u * normsq u <= c) -> c < 1 ->
    sumn (length x) (fun k => g (nth k x []) * nth k e 0 ^ 2) + distsq (o_w o') v <=
      distsq (o_w o) v + sumn (length x) (fun k => g (nth k x []) * (nth k d 0 - Rdot v (nth k x [])) ^ 2) / (1 - c).
  Proof.
    intros Hr Hx HG Lv E Hc Hc1. pose proof (reachable_wf _ _ Hr) as Hwf.
    destruct (run_lengths solve n o o' d x y e w Hwf Hx E) as (Hl & Hne & Hly & Hle & Hlw & Hy & He & Hw & HO & Hw').
    set (W := wrow w (o_w o')). set (N := length x) in *.
    assert (HN : (0 < N)%nat) by (unfold N; destruct x; [congruence|cbn; lia]).
    assert (W0 : W 0%nat = o_w o).
    { unfold W, wrow. rewrite app_nth1 by (rewrite Hlw; exact HN). rewrite Hw. rewrite wtrace_nth; [reflexivity|exact Hl|exact HN|exact HO]. }
    assert (WN : W N = o_w o') by (unfold W, wrow; rewrite app_nth2 by (rewrite Hlw; auto); rewrite Hlw, Nat.sub_diag; reflexivity).
    assert (Hk : forall k, (k <= N)%nat -> sumn k (fun k => g (nth k x []) * nth k e 0 ^ 2) + distsq (W k) v <=
      distsq (W 0%nat) v + sumn k (fun k => g (nth k x []) * (nth k d 0 - Rdot v (nth k x [])) ^ 2) / (1 - c)).
    { induction k as [|k IH]; intros Hk; [cbn [sumn]; unfold Rdiv; lra|]. specialize (IH ltac:(lia)). cbn [sumn].
      destruct (run_textbook solve n o o' d x y e w k Hwf Hx ltac:(intros; rewrite HG; discriminate) E ltac:(exact Hk)) as (dw & Hdw & Hrow & Hyk & Hek & Lw & Lxk).
      rewrite HG in Hdw. injection Hdw as <-. fold W in Hrow, Lw, Hyk. fold (W (S k)) in Hrow. fold (W k) in Hrow, Lw, Hyk.
      set (xk := nth k x []) in *. set (ek := nth k e 0) in *. destruct (Hc xk ltac:(apply nth_In; exact Hk)) as (G0 & G1).
      set (r := nth k d 0 - Rdot v xk).
      assert (HD : distsq (W (S k)) v = distsq (W k) v - 2 * g xk * ek * (ek - r) + g xk ^ 2 * ek ^ 2 * normsq xk).
      { rewrite Hrow. rewrite distsq_move by congruence.
        replace (Rdot (W k) xk) with (nth k d 0 - ek) by lra. unfold r. ring. }
      pose proof (step_ineq (g xk) ek r (normsq xk) G0 ltac:(lra)) as HS. rewrite HD.
      assert (HR : g xk * (r ^ 2 / (1 - g xk * normsq xk)) <= g xk * r ^ 2 / (1 - c)).
      { unfold Rdiv. rewrite <- Rmult_assoc. apply Rmult_le_compat_l; [apply Rmult_le_pos; [exact G0|apply pow2_ge_0]|]. apply Rinv_le_contravar; lra. }
      unfold Rdiv in *. rewrite Rmult_plus_distr_r. lra. }
    specialize (Hk N (le_n N)). rewrite W0, WN in Hk. exact Hk.
  Qed.

  (** *** C124: upper bounds *)
  Theorem C124_LMS : forall n (o o' : obj) d x y e w v X2, reachable n o -> o_ext o = XLMS -> rows_of n x -> length v = n -> run d x o = (o', Ok (y, e, w)) ->
    0 < o_mu o -> (forall u, In u x -> normsq u <= X2) -> o_mu o * X2 < 1 ->
    sumn (length x) (fun k => nth k e 0 ^ 2) <= distsq (o_w o) v / o_mu o + loss d x v / (1 - o_mu o * X2).
  Proof.
    intros n o o' d x y e w v X2 Hr HE Hx Lv E Hmu HX Hc.
    pose proof (energy_bound n o o' d x y e w v (fun _ => o_mu o) (o_mu o * X2) Hr Hx ltac:(intros; rewrite HE; reflexivity) Lv E) as H.
    specialize (H ltac:(intros u Hu; split; [lra|apply Rmult_le_compat_l; [lra|apply HX, Hu]]) Hc). cbv beta in H. rewrite !sumn_scal in H. fold (loss d x v) in H.
    assert (HD : 0 <= distsq (o_w o') v) by apply normsq_nonneg. apply (Rmult_le_reg_l (o_mu o)); [exact Hmu|].
    replace (o_mu o * (distsq (o_w o) v / o_mu o + loss d x v / (1 - o_mu o * X2))) with (distsq (o_w o) v + o_mu o * loss d x v / (1 - o_mu o * X2)) by (field; lra). lra.
  Qed.

  Theorem C124_NLMS : forall n (o o' : obj) d x y e w v eps, reachable n o -> o_ext o = XNLMS eps -> rows_of n x -> length v = n -> run d x o = (o', Ok (y, e, w)) ->
    0 < o_mu o < 1 -> 0 < eps ->
    sumn (length x) (fun k => nth k e 0 ^ 2 / (eps + normsq (nth k x []))) <=
      distsq (o_w o) v / o_mu o + sumn (length x) (fun k => (nth k d 0 - Rdot v (nth k x [])) ^ 2 / (eps + normsq (nth k x []))) / (1 - o_mu o).
  Proof.
    intros n o o' d x y e w v eps Hr HE Hx Lv E Hmu Heps.
    pose proof (energy_bound n o o' d x y e w v (fun u => o_mu o / (eps + normsq u)) (o_mu o) Hr Hx ltac:(intros; rewrite HE; reflexivity) Lv E) as H.
    assert (HP : forall u, 0 < eps + normsq u) by (intros u; pose proof (normsq_nonneg u); lra).
    specialize (H ltac:(intros u _; specialize (HP u); split; [apply Rmult_le_pos; [lra|left; apply Rinv_0_lt_compat; exact HP]|
      apply (Rmult_le_reg_r (eps + normsq u)); [exact HP|]; replace (o_mu o / (eps + normsq u) * normsq u * (eps + normsq u)) with (o_mu o * normsq u) by (field; lra); apply Rmult_le_compat_l; lra]) ltac:(lra)).
    cbv beta in H.
    rewrite (sumn_ext (length x) (fun k => o_mu o / (eps + normsq (nth k x [])) * nth k e 0 ^ 2) (fun k => o_mu o * (nth k e 0 ^ 2 / (eps + normsq (nth k x []))))) in H by (intros; unfold Rdiv; ring).
    rewrite (sumn_ext (length x) (fun k => o_mu o / (eps + normsq (nth k x [])) * (nth k d 0 - Rdot v (nth k x [])) ^ 2) (fun k => o_mu o * ((nth k d 0 - Rdot v (nth k x [])) ^ 2 / (eps + normsq (nth k x []))))) in H by (intros; unfold Rdiv; ring).
    rewrite !sumn_scal in H. assert (HD : 0 <= distsq (o_w o') v) by apply normsq_nonneg. apply (Rmult_le_reg_l (o_mu o)); [lra|].
    set (T := sumn (length x) (fun k => (nth k d 0 - Rdot v (nth k x [])) ^ 2 / (eps + normsq (nth k x [])))) in *.
    replace (o_mu o * (distsq (o_w o) v / o_mu o + T / (1 - o_mu o))) with (distsq (o_w o) v + o_mu o * T / (1 - o_mu o)) by (field; lra). lra.
  Qed.

  (** the step tuned to what is known beforehand: inputs of length at most X, a comparison vector within U of the initial
      weights, with a loss of at most Lm *)
  Theorem C124_tuned : forall n (o o' : obj) d x y e w v X U Lm, reachable n o -> o_ext o = XLMS -> rows_of n x -> length v = n -> run d x o = (o', Ok (y, e, w)) ->
    0 < X -> 0 < U -> 0 < Lm -> o_mu o = U / (X * (U * X + sqrt Lm)) ->
    (forall u, In u x -> normsq u <= X ^ 2) -> distsq (o_w o) v <= U ^ 2 -> loss d x v <= Lm ->
    sumn (length x) (fun k => nth k e 0 ^ 2) <= loss d x v + 2 * U * X * sqrt Lm + U ^ 2 * X ^ 2.
  Proof.
    intros n o o' d x y e w v X U Lm Hr HE Hx Lv E PX PU PL Hmu HX HU HL.
    assert (PS : 0 < sqrt Lm) by (apply sqrt_lt_R0; exact PL). set (s := sqrt Lm) in *. assert (Hs : s * s = Lm) by (apply sqrt_sqrt; lra).
    assert (PUX : 0 < U * X) by (apply Rmult_lt_0_compat; assumption). assert (PM : 0 < X * (U * X + s)) by (apply Rmult_lt_0_compat; lra).
    assert (Hc : o_mu o * X ^ 2 = U * X / (U * X + s)) by (rewrite Hmu; field; lra).
    assert (H1 : 1 - o_mu o * X ^ 2 = s / (U * X + s)) by (rewrite Hc; field; lra).
    assert (P1 : 0 < s / (U * X + s)) by (apply Rmult_lt_0_compat; [exact PS|apply Rinv_0_lt_compat; lra]).
    assert (Pmu : 0 < o_mu o) by (rewrite Hmu; apply Rmult_lt_0_compat; [exact PU|apply Rinv_0_lt_compat; exact PM]).
    pose proof (C124_LMS n o o' d x y e w v (X ^ 2) Hr HE Hx Lv E Pmu HX ltac:(lra)) as H. rewrite H1 in H.
    pose proof (loss_nonneg d x v) as HL0. set (L := loss d x v) in *.
    assert (A1 : distsq (o_w o) v / o_mu o <= U ^ 2 / o_mu o) by (apply Rmult_le_compat_r; [left; apply Rinv_0_lt_compat; exact Pmu|exact HU]).
    assert (A2 : U ^ 2 / o_mu o = U * X * s + U ^ 2 * X ^ 2) by (rewrite Hmu; field; lra).
    assert (A3 : L / (s / (U * X + s)) = L + U * X * (L / s)) by (field; lra).
    assert (A4 : L / s <= s). { apply (Rmult_le_reg_r s); [exact PS|]. unfold Rdiv. rewrite Rmult_assoc, Rinv_l by lra. lra. }
    assert (A5 : U * X * (L / s) <= U * X * s) by (apply Rmult_le_compat_l; lra). lra.
  Qed.

  (** *** no step does better: one of two target sequences costs the square root of the number of samples *)
  Lemma one_rows N : rows_of 1 (repeat [1] N).
  Proof. apply Forall_forall. intros v Hv. apply repeat_spec in Hv. subst v. reflexivity. Qed.
  Lemma one_nth N k : (k < N)%nat -> nth k (repeat [1] N) [] = [1].
  Proof. intros Hk. apply (repeat_spec N). apply nth_In. rewrite repeat_length. exact Hk. Qed.
  Lemma lms_exists (o : obj) d N : reachable 1 o -> o_ext o = XLMS -> length d = N -> (0 < N)%nat -> exists o' y e w, run d (repeat [1] N) o = (o', Ok (y, e, w)).
  Proof.
    intros Hr HE Ld HN. apply (run_exists solve 1); [exact Hr|apply one_rows|rewrite repeat_length; exact Ld|destruct N; [lia|discriminate]|].
    intros ex. unfold soft_exn. rewrite HE. auto.
  Qed.
  Theorem C124_needed : forall M (o : obj), (1 <= M)%nat -> reachable 1 o -> o_ext o = XLMS -> o_w o = [0] ->
    let N := (4 * M * M)%nat in let x := repeat [1] N in
    exists d v, length d = N /\ (forall k, (k < N)%nat -> Rabs (nth k d 0) = 1) /\ (v = [0] \/ v = [1]) /\
      exists o' y e w, run d x o = (o', Ok (y, e, w)) /\ loss d x v + sqrt (INR N) / 8 <= sumn N (fun k => nth k e 0 ^ 2).
  Proof.
    intros M o HM Hr HE Hw N x. assert (HN : (0 < N)%nat) by (unfold N; nia).
    assert (M1 : 1 <= INR M) by (change 1 with (INR 1); apply le_INR; exact HM).
    assert (HS : sqrt (INR N) = 2 * INR M). { unfold N. rewrite !mult_INR. replace (INR 4) with 4 by (cbn; ring). replace (4 * INR M * INR M) with ((2 * INR M) * (2 * INR M)) by ring. apply sqrt_square. lra. }
    rewrite HS. assert (HX : length x = N) by apply repeat_length. set (mu := o_mu o).
    assert (Hstep : step_is o 1 mu) by (left; split; [exact HE|unfold mu; ring]).
    destruct (Rle_lt_dec mu (1 / (2 * INR M))) as [Hmu|Hmu].
    - (* a small step: the constant targets 1 *)
      exists (repeat 1 N), [1]. assert (HD : forall k, (k < N)%nat -> nth k (repeat 1 N) 0 = 1).
      { intros k Hk. apply (repeat_spec N). apply nth_In. rewrite repeat_length. exact Hk. }
      split; [apply repeat_length|]. split; [intros k Hk; rewrite HD by exact Hk; apply Rabs_R1|]. split; [right; reflexivity|].
      destruct (lms_exists o (repeat 1 N) N Hr HE ltac:(apply repeat_length) HN) as (o' & y & e & w & E). exists o', y, e, w. split; [exact E|].
      destruct (C123_offset solve 1 mu o o' _ N y e w Hr Hstep E) as (H1 & H0).
      assert (HL : loss (repeat 1 N) x [1] = 0).
      { unfold loss. rewrite HX. rewrite (sumn_ext N _ (fun _ => 0)); [apply sumn_0|]. intros k Hk. unfold x. rewrite HD, one_nth by exact Hk. cbn [Rdot]. ring. }
      assert (He : forall k, (k < N)%nat -> nth k e 0 = (1 - mu) ^ k).
      { induction k as [|k IH]; intros Hk; [rewrite H0, HD, Hw by exact Hk; cbn; ring|]. rewrite H1, !HD, IH by lia. cbn [pow]. ring. }
      assert (Hmu1 : mu <= 1). { eapply Rle_trans; [exact Hmu|]. apply (Rmult_le_reg_r (2 * INR M)); [lra|]. unfold Rdiv. rewrite Rmult_assoc, Rinv_l by lra. lra. }
      assert (HB : forall k, 1 - INR k * mu <= (1 - mu) ^ k \/ mu <= 0 /\ 1 <= (1 - mu) ^ k).
      { intros k. destruct (Rle_lt_dec mu 0) as [H|H]; [right; split; [exact H|apply pow_R1_Rle; lra]|left].
        induction k as [|k IH]; [cbn; lra|]. cbn [pow]. rewrite S_INR. pose proof (pos_INR k).
        assert ((1 - mu) * (1 - INR k * mu) <= (1 - mu) * (1 - mu) ^ k) by (apply Rmult_le_compat_l; lra). assert (0 <= INR k * mu * mu) by (apply Rmult_le_pos; [apply Rmult_le_pos|]; lra). lra. }
      assert (HMN : (M <= N)%nat) by (unfold N; nia).
      rewrite HL. replace N with (M + (N - M))%nat by lia. rewrite sumn_split.
      assert (T : 0 <= sumn (N - M) (fun i => nth (M + i) e 0 ^ 2)) by (apply sumn_nonneg; intros; apply pow2_ge_0).
      assert (T1 : INR M * (1 / 4) <= sumn M (fun k => nth k e 0 ^ 2)); [|lra].
      rewrite <- sumn_same. apply sumn_le. intros k Hk. rewrite He by lia. assert (Hh : 1 / 2 <= (1 - mu) ^ k).
      { destruct (HB k) as [H|(_ & H)]; [|lra]. destruct (Rle_lt_dec mu 0) as [H'|H'].
        - pose proof (pow_R1_Rle (1 - mu) k ltac:(lra)). lra.
        - assert (INR k * mu <= 1 / 2); [|lra]. apply Rle_trans with (INR M * (1 / (2 * INR M))); [|right; field; lra].
          apply Rmult_le_compat; [apply pos_INR|lra|apply le_INR; lia|exact Hmu]. }
      assert (1 / 2 * (1 / 2) <= (1 - mu) ^ k * (1 - mu) ^ k) by (apply Rmult_le_compat; lra). replace (((1 - mu) ^ k) ^ 2) with ((1 - mu) ^ k * (1 - mu) ^ k) by ring. lra.
    - (* a large step: the alternating targets *)
      exists (alternating N), [0]. assert (LA : length (alternating N) = N) by (unfold alternating; rewrite map_length, seq_length; reflexivity).
      assert (HD : forall k, (k < N)%nat -> nth k (alternating N) 0 = (-1) ^ k) by (intros k Hk; apply alt_nth, Hk).
      split; [exact LA|]. split; [intros k Hk; rewrite HD by exact Hk; apply pow_1_abs|]. split; [left; reflexivity|].
      destruct (lms_exists o (alternating N) N Hr HE LA HN) as (o' & y & e & w & E). exists o', y, e, w. split; [exact E|].
      destruct (C123_offset solve 1 mu o o' _ N y e w Hr Hstep E) as (H1 & H0).
      assert (HL : loss (alternating N) x [0] = INR N * 1).
      { unfold loss. rewrite HX. rewrite <- sumn_same. apply sumn_ext. intros k Hk. unfold x. rewrite HD, one_nth by exact Hk. cbn [Rdot]. replace (((-1) ^ k - (0 * 1 + 0)) ^ 2) with ((-1) ^ k * (-1) ^ k) by ring. apply alt_sq. }
      set (a := fix a (j : nat) : R := match j with O => 0 | S j => mu - (1 - mu) * a j end).
      assert (He : forall k, (k < N)%nat -> nth k e 0 = (-1) ^ k * (1 + a k)).
      { induction k as [|k IH]; intros Hk; [rewrite H0, HD, Hw by exact Hk; cbn; ring|]. rewrite H1, !HD, IH by lia. cbn [pow a]. change ((fix a (j : nat) : R := match j with O => 0 | S j => mu - (1 - mu) * a j end) k) with (a k). ring. }
      assert (Pmu : 0 < mu). { eapply Rlt_trans; [|exact Hmu]. apply Rmult_lt_0_compat; [lra|apply Rinv_0_lt_compat; lra]. }
      assert (Ha : forall k, 0 <= a k /\ (mu <= 1 -> a k <= mu)).
      { induction k as [|k (I1 & I2)]; [cbn; lra|]. change (a (S k)) with (mu - (1 - mu) * a k). destruct (Rle_lt_dec mu 1) as [H|H].
        - specialize (I2 H). assert (0 <= (1 - mu) * a k <= (1 - mu) * mu) by (split; [apply Rmult_le_pos; lra|apply Rmult_le_compat_l; lra]).
          assert ((1 - mu) * mu <= 1 * mu) by (apply Rmult_le_compat_r; lra). split; [lra|intros _; lra].
        - assert (0 <= (mu - 1) * a k) by (apply Rmult_le_pos; lra). split; [lra|intros C; lra]. }
      rewrite HL. rewrite (sumn_ext N (fun k => nth k e 0 ^ 2) (fun k => 1 + 2 * a k + a k ^ 2)) by (intros k Hk; rewrite He by exact Hk; apply alt_sqr).
      assert (HJ : forall J, INR (2 * J) * 1 + 2 * mu * INR J <= sumn (2 * J) (fun k => 1 + 2 * a k + a k ^ 2)).
      { induction J as [|J IH]; [cbn; lra|]. replace (2 * S J)%nat with (S (S (2 * J))) by lia. cbn [sumn]. rewrite !S_INR.
        change (a (S (2 * J))) with (mu - (1 - mu) * a (2 * J)%nat). destruct (Ha (2 * J)%nat) as (B & _). set (b := a (2 * J)%nat) in *.
        pose proof (pow2_ge_0 b). pose proof (pow2_ge_0 (mu - (1 - mu) * b)). assert (0 <= mu * b) by (apply Rmult_le_pos; lra). lra. }
      specialize (HJ (2 * M * M)%nat). replace (2 * (2 * M * M))%nat with N in HJ by (unfold N; lia). rewrite !mult_INR in HJ. replace (INR 2) with 2 in HJ by (cbn; ring).
      assert (HM2 : 1 <= mu * (2 * INR M)). { replace 1 with (1 / (2 * INR M) * (2 * INR M)) by (field; lra). apply Rmult_le_compat_r; lra. }
      assert (2 * INR M * 1 <= 2 * INR M * (mu * (2 * INR M))) by (apply Rmult_le_compat_l; lra). lra.
  Qed.

  (** *** hypotheses: 64 noisy samples of a line through the origin, LMS tuned with X = 1, U = 1, Lm = 1; and NLMS *)
  Example C124_hypotheses :
    let d := map (fun k => 1 + (-1) ^ k / 8) (seq 0 64) in let x := repeat [1; 0] 64 in
    let o1 := fresh2 (1 / 2) XLMS in let o2 := fresh2 (1 / 2) (XNLMS 1) in
    reachable 2 o1 /\ reachable 2 o2 /\ o_mu o1 = 1 / (1 * (1 * 1 + sqrt 1)) /\ (forall u, In u x -> normsq u <= 1 ^ 2) /\
    distsq (o_w o1) [1; 0] <= 1 ^ 2 /\ loss d x [1; 0] = 1 /\
    (exists o' y e w, run d x o1 = (o', Ok (y, e, w))) /\ (exists o' y e w, run d x o2 = (o', Ok (y, e, w))) /\
    reachable 1 (mkObj [0] 1 1 None XLMS : obj).
  Proof.
    intros d x o1 o2.
    assert (R1 : reachable 2 o1) by (apply (fresh2_reachable solve (1 / 2) None None None KLMS); reflexivity).
    assert (R2 : reachable 2 o2) by (apply (fresh2_reachable solve (1 / 2) (Some 1) None None KNLMS); reflexivity).
    assert (HX : forall u, In u x -> u = [1; 0]) by (intros u Hu; apply (repeat_spec 64 _ _ Hu)).
    assert (Hrows : rows_of 2 x) by (apply Forall_forall; intros u Hu; rewrite (HX u Hu); reflexivity).
    split; [exact R1|]. split; [exact R2|]. split; [cbn [o1 fresh2 o_mu]; rewrite sqrt_1; field|].
    split; [intros u Hu; rewrite (HX u Hu); unfold normsq; cbn; lra|]. split; [unfold distsq, normsq; cbn; lra|].
    split.
    - unfold loss. replace (length x) with 64%nat by (unfold x; rewrite repeat_length; reflexivity).
      rewrite (sumn_ext 64 _ (fun _ => 1 / 64)); [rewrite sumn_same; replace (INR 64) with 64 by (cbn; ring); field|].
      intros k Hk. replace (nth k x []) with [1; 0] by (symmetry; apply HX, nth_In; unfold x; rewrite repeat_length; exact Hk).
      unfold d. rewrite (nth_tab 64 (fun k => 1 + (-1) ^ k / 8)) by exact Hk. cbn [Rdot].
      replace ((1 + (-1) ^ k / 8 - (1 * 1 + (0 * 0 + 0))) ^ 2) with ((-1) ^ k * (-1) ^ k / 64) by field. rewrite alt_sq. reflexivity.
    - split; [|split].
      + apply (run_exists solve 2); [exact R1|exact Hrows|reflexivity|discriminate|intros ex; unfold soft_exn; cbn; auto].
      + apply (run_exists solve 2); [exact R2|exact Hrows|reflexivity|discriminate|intros ex; unfold soft_exn; cbn; auto].
      + apply (reach_new 1 rngR KLMS (mkKw (Some 1%Z) (Some 1) (Some (WVec [0])) None None None None None None None None false)); [apply rngR_ok|split; intros ? H; discriminate H|reflexivity|reflexivity].
  Qed.
End S.
