(** C107: training in epochs - pretrained_run and repeated run over the same data (exact real arithmetic). *)
From Coq Require Import Reals Lra Psatz.
From Verif Require Import Py Num Numpy Filters Registry Spec StructProofs RunProofs Reach RVec RFilter PropsStability PropsTracking Steps PropsESE.
Open Scope R_scope.

(** ** Projections on the span of a list of vectors *)
Definition energy (xs : list rvec) (v : rvec) : R := fold_right (fun x s => Rdot v x ^ 2 + s) 0 xs.
Lemma energy_nonneg xs v : 0 <= energy xs v.
Proof. induction xs as [|x xs IH]; cbn [energy fold_right]; [lra|]. fold (energy xs v). pose proof (pow2_ge_0 (Rdot v x)). lra. Qed.
Definition perp (xs : list rvec) (u : rvec) : Prop := Forall (fun x => Rdot u x = 0) xs.
(** orthogonal to everything that is orthogonal to xs *)
Definition within (n : nat) (xs : list rvec) (v : rvec) : Prop := forall u, length u = n -> perp xs u -> Rdot v u = 0.

Lemma energy_perp xs v : energy xs v = 0 -> perp xs v.
Proof.
  induction xs as [|x xs IH]; intros H; [constructor|]. cbn [energy fold_right] in H. fold (energy xs v) in H.
  pose proof (energy_nonneg xs v). pose proof (pow2_ge_0 (Rdot v x)). constructor; [|apply IH; lra].
  assert (E : Rdot v x ^ 2 = 0) by lra. nra.
Qed.
Lemma vsub_self_zero u v n : length u = n -> length v = n -> normsq (vsub u v) = 0 -> u = v.
Proof. intros Lu Lv H. apply distsq_zero; [congruence|exact H]. Qed.

Lemma project n xs : Forall (fun x => length x = n) xs ->
  exists a, 0 < a /\ forall v, length v = n -> exists p, length p = n /\ perp xs (vsub v p) /\ within n xs p /\ a * normsq p <= energy xs v.
Proof.
  induction xs as [|x xs IH]; intros HF.
  - exists 1. split; [lra|]. intros v Lv. exists (repeat 0 n). split; [apply repeat_length|]. split; [constructor|].
    split; [intros u _ _; apply Rdot_zero_l|]. unfold normsq. rewrite Rdot_zero_l. cbn. lra.
  - pose proof (Forall_inv HF) as Lx. destruct (IH (Forall_inv_tail HF)) as (a & Ha & HP). clear IH.
    destruct (HP x Lx) as (px & Lpx & Pe & Pw & _). set (r := vsub x px) in *.
    assert (Lr : length r = n) by (apply vsub_length; auto).
    assert (Rw : within n (x :: xs) r).
    { intros u Lu Hu. unfold r. rewrite Rdot_vsub_l by congruence. rewrite (Pw u Lu (Forall_inv_tail Hu)).
      rewrite (Rdot_comm x u), (Forall_inv Hu). ring. }
    assert (Wm : forall p, within n xs p -> within n (x :: xs) p) by (intros p Hp u Lu Hu; apply Hp; [exact Lu|apply (Forall_inv_tail Hu)]).
    assert (Hrx : Rdot r x = normsq r).
    { assert (E0 : Rdot px r = 0) by (apply Pw; auto). unfold normsq. unfold r at 3. rewrite (Rdot_vsub_r r x px) by congruence.
      rewrite (Rdot_comm r px), E0. ring. }
    destruct (Req_dec (normsq r) 0) as [Z|NZ].
    + exists a. split; [exact Ha|]. intros v Lv. destruct (HP v Lv) as (p & Lp & Pp & Ww & B). exists p. split; [exact Lp|]. split; [|split; [auto|]].
      * assert (Ex : x = px) by (apply (vsub_self_zero _ _ n); auto). constructor; [|exact Pp]. rewrite Rdot_comm. rewrite Ex. apply Pw; [apply vsub_length; auto|exact Pp].
      * cbn [energy fold_right]. fold (energy xs v). pose proof (pow2_ge_0 (Rdot v x)). lra.
    + pose proof (normsq_nonneg r) as Hr0. set (q := normsq r) in *. assert (Hq : 0 < q) by lra. set (X := normsq x) in *. assert (HX : 0 <= X) by apply normsq_nonneg.
      set (b := / a + 2 * / q + 2 * X * / a * / q). assert (Ia : 0 < / a) by (apply Rinv_0_lt_compat; lra). assert (Iq : 0 < / q) by (apply Rinv_0_lt_compat; lra).
      assert (Hc1 : 0 <= 2 * X * / a * / q) by (repeat apply Rmult_le_pos; lra).
      assert (Hb : 0 < b) by (unfold b; lra). exists (/ b). split; [apply Rinv_0_lt_compat; exact Hb|]. intros v Lv.
      destruct (HP v Lv) as (p & Lp & Pp & Ww & B). set (c := (Rdot v x - Rdot p x) * / q). set (p' := vadd p (vsc c r)).
      assert (Lcr : length (vsc c r) = n) by (rewrite vsc_length; exact Lr). assert (Lp' : length p' = n) by (apply vadd_length; auto).
      assert (Hpr : Rdot p r = 0) by (apply Ww; auto).
      exists p'. split; [exact Lp'|]. split; [|split].
      * constructor.
        -- rewrite Rdot_vsub_l by congruence. unfold p'. rewrite Rdot_vadd_l by congruence. rewrite Rdot_vsc_l, Hrx. unfold c. fold q. field. lra.
        -- unfold perp in *. rewrite Forall_forall in *. intros y Hy. specialize (Pp y Hy). specialize (Pe y Hy). pose proof (HF y (or_intror Hy)) as Ly. cbv beta in Ly.
           rewrite Rdot_vsub_l in Pp by congruence. rewrite Rdot_vsub_l by congruence. unfold p'. rewrite Rdot_vadd_l by congruence. rewrite Rdot_vsc_l.
           change (Rdot r y = 0) in Pe. rewrite Pe. lra.
      * intros u Lu Hu. unfold p'. rewrite Rdot_vadd_l by congruence. rewrite Rdot_vsc_l, (Rw u Lu Hu), (Wm p Ww u Lu Hu). ring.
      * cbn [energy fold_right]. fold (energy xs v). set (sv := energy xs v) in *. assert (Hs : 0 <= sv) by apply energy_nonneg.
        assert (En : normsq p' = normsq p + c ^ 2 * q).
        { unfold p'. rewrite normsq_vadd by congruence. rewrite Rdot_vsc_r, normsq_vsc, Hpr. fold q. ring. }
        pose proof (Cauchy_Schwarz p x) as CS. fold X in CS. set (P := normsq p) in *. set (t := Rdot v x) in *. set (z := Rdot p x) in *.
        assert (HP1 : P <= sv * / a). { replace P with ((a * P) * / a) by (field; lra). apply Rmult_le_compat_r; lra. }
        assert (Hz : z ^ 2 <= sv * / a * X). { replace (z ^ 2) with (z * z) by ring. apply Rle_trans with (P * X); [exact CS|]. apply Rmult_le_compat_r; lra. }
        assert (Hc2 : c ^ 2 * q <= 2 * (t ^ 2 + z ^ 2) * / q).
        { unfold c. replace (((t - z) * / q) ^ 2 * q) with ((t - z) ^ 2 * / q) by (field; lra). apply Rmult_le_compat_r; [lra|]. pose proof (pow2_ge_0 (t + z)). nra. }
        assert (Hc3 : 2 * (t ^ 2 + z ^ 2) * / q <= 2 * (t ^ 2 + sv * / a * X) * / q) by (apply Rmult_le_compat_r; lra).
        assert (Ht : 0 <= t ^ 2) by apply pow2_ge_0.
        assert (G : normsq p' <= b * (t ^ 2 + sv)).
        { rewrite En. unfold b. assert (0 <= / a * t ^ 2) by (apply Rmult_le_pos; lra). assert (0 <= 2 * / q * sv) by (repeat apply Rmult_le_pos; lra).
          assert (0 <= 2 * X * / a * / q * t ^ 2) by (apply Rmult_le_pos; lra). lra. }
        replace (t ^ 2 + sv) with (/ b * (b * (t ^ 2 + sv))) by (field; lra). apply Rmult_le_compat_l; [left; apply Rinv_0_lt_compat; exact Hb|exact G].
Qed.

(** a lower bound of the energy of the vectors in the span *)
Lemma span_excited n xs : Forall (fun x => length x = n) xs ->
  exists a, 0 < a /\ forall v, length v = n -> within n xs v -> a * normsq v <= energy xs v.
Proof.
  intros HF. destruct (project n xs HF) as (a & Ha & HP). exists a. split; [exact Ha|]. intros v Lv Hv.
  destruct (HP v Lv) as (p & Lp & Pp & Ww & B). enough (E : v = p) by (rewrite E at 1; exact B).
  assert (Ls : length (vsub v p) = n) by (apply vsub_length; auto).
  apply (vsub_self_zero _ _ n); auto. unfold normsq. rewrite Rdot_vsub_l by congruence. rewrite (Hv _ Ls Pp), (Ww _ Ls Pp). ring.
Qed.

(** ** One pass over the data *)
Section Sweep.
  Variable n : nat.
  Variable g : rvec -> R.
  (** the weight error and the weights after one pass *)
  Definition sweep (xs : list rvec) (v : rvec) : rvec := fold_left (fun v x => vadd v (vsc (- (g x * Rdot v x)) x)) xs v.
  Definition pass (ds : rvec) (xs : list rvec) (w : rvec) : rvec :=
    fold_left (fun w s => vadd w (vsc (g (snd s) * (fst s - Rdot w (snd s))) (snd s))) (combine ds xs) w.
  Definition good (x : rvec) : Prop := length x = n /\ 0 < g x /\ g x * normsq x < 2.

  Lemma good_len xs : Forall good xs -> Forall (fun x => length x = n) xs.
  Proof. apply Forall_impl. intros x H. apply H. Qed.
  Lemma step_length c x v : length v = n -> length x = n -> length (vadd v (vsc c x)) = n.
  Proof. intros. apply vadd_length; rewrite ?vsc_length; auto. Qed.
  Lemma sweep_length xs : Forall good xs -> forall v, length v = n -> length (sweep xs v) = n.
  Proof.
    induction xs as [|x xs IH]; intros HF v Lv; [exact Lv|]. cbn [sweep fold_left]. apply IH; [apply (Forall_inv_tail HF)|].
    apply step_length; [exact Lv|apply (Forall_inv HF)].
  Qed.
  Lemma pass_length xs : Forall good xs -> forall ds w, length w = n -> length (pass ds xs w) = n.
  Proof.
    induction xs as [|x xs IH]; intros HF ds w Lw; [destruct ds; exact Lw|]. destruct ds as [|d ds]; [exact Lw|].
    unfold pass. cbn [combine fold_left fst snd]. apply (IH (Forall_inv_tail HF)). apply step_length; [exact Lw|apply (Forall_inv HF)].
  Qed.
  Lemma vsub_step w w' a b x : length w = n -> length w' = n -> length x = n ->
    vsub (vadd w (vsc a x)) (vadd w' (vsc b x)) = vadd (vsub w w') (vsc (a - b) x).
  Proof.
    intros L1 L2 L3. assert (Lv : length (vsub w w') = n) by (apply vsub_length; auto). assert (Lc : forall c, length (vsc c x) = n) by (intros; rewrite vsc_length; auto).
    pose proof (step_length a x w L1 L3) as La. pose proof (step_length b x w' L2 L3) as Lb.
    apply nth_ext0; [rewrite (vsub_length _ _ n La Lb), (step_length _ x _ Lv L3); reflexivity|]. intros i _.
    rewrite nth_vsub by congruence. rewrite !nth_vadd by (rewrite Lc; congruence). rewrite nth_vsub by congruence. rewrite !nth_vsc. ring.
  Qed.
  (** the difference of two trajectories does not depend on the targets *)
  Lemma pass_sweep xs : Forall good xs -> forall ds w w', length ds = length xs -> length w = n -> length w' = n ->
    vsub (pass ds xs w) (pass ds xs w') = sweep xs (vsub w w').
  Proof.
    induction xs as [|x xs IH]; intros HF ds w w' Ld Lw Lw'; destruct ds as [|d ds]; try discriminate Ld; [reflexivity|].
    pose proof (Forall_inv HF) as (Lx & _). unfold pass, sweep. cbn [combine fold_left fst snd].
    etransitivity; [apply (IH (Forall_inv_tail HF)); [injection Ld as Ld; exact Ld|apply step_length; auto|apply step_length; auto]|].
    unfold sweep. f_equal. rewrite vsub_step by assumption. f_equal. f_equal. rewrite Rdot_vsub_l by congruence. ring.
  Qed.

  Lemma step_normsq v x : length v = n -> length x = n ->
    normsq (vadd v (vsc (- (g x * Rdot v x)) x)) = normsq v - g x * (2 - g x * normsq x) * Rdot v x ^ 2.
  Proof. intros Lv Lx. rewrite normsq_vadd by (rewrite vsc_length; congruence). rewrite Rdot_vsc_r, normsq_vsc. ring. Qed.

  Lemma energy_step xs v x c : Forall (fun x => length x = n) xs -> length v = n -> length x = n ->
    energy xs v <= 2 * energy xs (vadd v (vsc c x)) + 2 * (c ^ 2 * energy xs x).
  Proof.
    intros HL Lv Lx. induction xs as [|y ys IHy]; cbn [energy fold_right]; [lra|]. fold (energy ys v) (energy ys (vadd v (vsc c x))) (energy ys x).
    specialize (IHy (Forall_inv_tail HL)). pose proof (Forall_inv HL) as Ly. cbv beta in Ly. rewrite (Rdot_vadd_l y v (vsc c x)) by (rewrite ?vsc_length; congruence). rewrite Rdot_vsc_l.
    set (p := Rdot v y) in *. set (q := Rdot x y) in *.
    assert (Hp : p ^ 2 <= 2 * (p + c * q) ^ 2 + 2 * (c ^ 2 * q ^ 2)) by (pose proof (pow2_ge_0 (p + 2 * (c * q))); nra).
    lra.
  Qed.
  Lemma sweep_shrinks xs : Forall good xs -> exists K, 0 < K /\ forall v, length v = n -> energy xs v <= K * (normsq v - normsq (sweep xs v)).
  Proof.
    induction xs as [|x xs IH]; intros HF; [exists 1; split; [lra|]; intros v _; change (sweep [] v) with v; cbn [energy fold_right]; lra|].
    destruct (IH (Forall_inv_tail HF)) as (K & HK & HE). pose proof (Forall_inv HF) as (Lx & Hg & Hg2). pose proof (good_len _ (Forall_inv_tail HF)) as HL. clear IH.
    set (de := g x * (2 - g x * normsq x)). assert (Hde : 0 < de) by (unfold de; apply Rmult_lt_0_compat; lra). assert (Ide : 0 < / de) by (apply Rinv_0_lt_compat; lra).
    set (C := g x ^ 2 * energy xs x). assert (HC : 0 <= C) by (unfold C; apply Rmult_le_pos; [apply pow2_ge_0|apply energy_nonneg]).
    assert (M0 : 0 <= (2 * C + 1) * / de) by (apply Rmult_le_pos; lra).
    exists (2 * K + (2 * C + 1) * / de). split; [lra|]. intros v Lv. cbn [energy fold_right]. fold (energy xs v). cbn [sweep fold_left].
    pose proof (energy_step xs v x (- (g x * Rdot v x)) HL Lv Lx) as Hev.
    set (v1 := vadd v _) in *. assert (L1 : length v1 = n) by (apply step_length; auto). specialize (HE v1 L1). change (fold_left _ xs v1) with (sweep xs v1).
    pose proof (step_normsq v x Lv Lx) as E1. fold v1 de in E1. set (t := Rdot v x) in *.
    replace ((- (g x * t)) ^ 2 * energy xs x) with (C * t ^ 2) in Hev by (unfold C; ring).
    pose proof (energy_nonneg xs v1) as H1. assert (A0 : 0 <= normsq v1 - normsq (sweep xs v1)) by (apply Rmult_le_reg_l with K; lra).
    set (A := normsq v1 - normsq (sweep xs v1)) in *. set (B := de * t ^ 2) in *. assert (B0 : 0 <= B) by (apply Rmult_le_pos; [lra|apply pow2_ge_0]).
    replace (normsq v - normsq (sweep xs v1)) with (A + B) by (unfold A; rewrite E1; ring).
    replace (t ^ 2) with (/ de * B) in * by (unfold B; field; lra).
    assert (X1 : 0 <= 2 * K * B) by (apply Rmult_le_pos; lra). assert (X2 : 0 <= (2 * C + 1) * / de * A) by (apply Rmult_le_pos; lra). lra.
  Qed.

  Lemma sweep_within xs : Forall good xs -> forall ys v, incl ys xs -> length v = n -> within n xs v -> within n xs (sweep ys v).
  Proof.
    intros HF ys. induction ys as [|y ys IH]; intros v Hi Lv Hv; [exact Hv|]. cbn [sweep fold_left].
    assert (Hy : In y xs) by (apply Hi; left; reflexivity). assert (Ly : length y = n) by (rewrite Forall_forall in HF; apply (HF y Hy)).
    apply IH; [intros z Hz; apply Hi; right; exact Hz|apply step_length; auto|].
    intros u Lu Hu. rewrite Rdot_vadd_l by (rewrite ?vsc_length; congruence). rewrite Rdot_vsc_l, (Hv u Lu Hu).
    unfold perp in Hu. rewrite Forall_forall in Hu. rewrite (Rdot_comm y u), (Hu y Hy). ring.
  Qed.
  Lemma pass_within xs : Forall good xs -> forall ds w, length ds = length xs -> length w = n -> within n xs (vsub (pass ds xs w) w).
  Proof.
    intros HF ds w Ld Lw u Lu Hu. pose proof (pass_length xs HF ds w Lw) as Lp. rewrite Rdot_vsub_l by congruence. clear Lp.
    enough (E : Rdot (pass ds xs w) u = Rdot w u) by lra. revert ds w Ld Lw. induction xs as [|x xs IH]; intros [|d ds] w Ld Lw; try discriminate Ld; [reflexivity|].
    pose proof (Forall_inv HF) as (Lx & _). unfold pass. cbn [combine fold_left fst snd].
    etransitivity; [apply (IH (Forall_inv_tail HF) (Forall_inv_tail Hu) ds); [injection Ld as Ld; exact Ld|apply step_length; auto]|].
    rewrite Rdot_vadd_l by (rewrite ?vsc_length; congruence). rewrite Rdot_vsc_l, (Rdot_comm x u), (Forall_inv Hu). ring.
  Qed.

  (** every pass contracts the span of the inputs *)
  Lemma contraction xs : Forall good xs -> exists rho, 0 <= rho < 1 /\ forall v, length v = n -> within n xs v -> norm (sweep xs v) <= rho * norm v.
  Proof.
    intros HF. destruct (sweep_shrinks xs HF) as (K & HK & HE). destruct (span_excited n xs (good_len _ HF)) as (a & Ha & HA).
    assert (IK : 0 < / (K + a)) by (apply Rinv_0_lt_compat; lra). set (q := 1 - a * / (K + a)). assert (Hq : 0 <= q < 1).
    { unfold q. replace (a * / (K + a)) with (1 - K * / (K + a)) by (field; lra). assert (0 < K * / (K + a)) by (apply Rmult_lt_0_compat; lra).
      assert (0 < a * / (K + a)) by (apply Rmult_lt_0_compat; lra). assert (a * / (K + a) = 1 - K * / (K + a)) by (field; lra). lra. }
    exists (sqrt q). split; [split; [apply sqrt_pos|rewrite <- sqrt_1; apply sqrt_lt_1; lra]|]. intros v Lv Hv. unfold norm. rewrite <- sqrt_mult by (try apply normsq_nonneg; lra).
    apply sqrt_le_1; [apply normsq_nonneg|apply Rmult_le_pos; [lra|apply normsq_nonneg]|].
    specialize (HE v Lv). specialize (HA v Lv Hv). set (V := normsq v) in *. set (V' := normsq (sweep xs v)) in *.
    assert (HV : 0 <= V - V') by (apply Rmult_le_reg_l with K; [lra|]; pose proof (energy_nonneg xs v); lra).
    assert (H1 : a * V <= (K + a) * (V - V')). { assert (0 <= a * (V - V')) by (apply Rmult_le_pos; lra). lra. }
    assert (H2 : / (K + a) * (a * V) <= V - V').
    { replace (V - V') with (/ (K + a) * ((K + a) * (V - V'))) by (field; lra). apply Rmult_le_compat_l; lra. }
    unfold q. lra.
  Qed.
End Sweep.

(** ** Limits *)
Lemma tiny a C rho : 0 <= rho < 1 -> (forall k, Rabs a <= rho ^ k * C) -> a = 0.
Proof.
  intros Hr H. destruct (Req_dec a 0) as [|N]; [assumption|exfalso]. pose proof (Rabs_pos_lt a N) as Ha.
  assert (HC : 0 < C) by (specialize (H 0%nat); cbn in H; lra).
  destruct (pow_lt_1_zero rho ltac:(rewrite Rabs_right; lra) (Rabs a / C)) as (k & Hk); [apply Rdiv_lt_0_compat; lra|].
  specialize (Hk k (le_n k)). specialize (H k). pose proof (Rle_abs (rho ^ k)).
  assert (rho ^ k * C < Rabs a / C * C) by (apply Rmult_lt_compat_r; lra). replace (Rabs a / C * C) with (Rabs a) in * by (field; lra). lra.
Qed.
Lemma nth_norm v i : Rabs (nth i v 0) <= norm v.
Proof.
  unfold norm. rewrite <- sqrt_Rsqr_abs. apply sqrt_le_1; [apply Rle_0_sqr|apply normsq_nonneg|]. revert i. unfold normsq, Rsqr.
  induction v as [|a v IH]; intros [|i]; cbn [nth Rdot]; try lra.
  - pose proof (normsq_nonneg v) as H. unfold normsq in H. lra.
  - specialize (IH i). pose proof (Rle_0_sqr a) as H. unfold Rsqr in H. lra.
Qed.
Lemma cv_upper u l B : Un_cv u l -> (forall k, u k <= B) -> l <= B.
Proof.
  intros Hu HB. destruct (Rle_lt_dec l B) as [|Hl]; [assumption|exfalso]. destruct (Hu (l - B)) as (N & HN); [lra|].
  specialize (HN N (le_n N)). specialize (HB N). unfold R_dist in HN. unfold Rabs in HN. destruct (Rcase_abs (u N - l)); lra.
Qed.
Lemma cv_const c : Un_cv (fun _ => c) c.
Proof. intros e He. exists 0%nat. intros. unfold R_dist. rewrite Rminus_diag_eq, Rabs_R0 by reflexivity. exact He. Qed.
(** coordinatewise limits *)
Lemma cv_distsq n (U : nat -> rvec) l v : length l = n -> length v = n -> (forall k, length (U k) = n) ->
  (forall i, (i < n)%nat -> Un_cv (fun k => nth i (U k) 0) (nth i l 0)) -> Un_cv (fun k => distsq v (U k)) (distsq v l).
Proof.
  revert U l v. induction n as [|n IH]; intros U l v Ll Lv LU H.
  - destruct l; [|discriminate]. destruct v; [|discriminate]. exact (cv_const (distsq [] [])).
  - destruct l as [|a l]; [discriminate|]. destruct v as [|b v]; [discriminate|].
    assert (E : forall k, distsq (b :: v) (U k) = (b - nth 0 (U k) 0) * (b - nth 0 (U k) 0) + distsq v (tl (U k))).
    { intros k. specialize (LU k). destruct (U k); [discriminate|]. reflexivity. }
    assert (C : Un_cv (fun k => (b - nth 0 (U k) 0) * (b - nth 0 (U k) 0) + distsq v (tl (U k))) ((b - a) * (b - a) + distsq v l)).
    { pose proof (H 0%nat ltac:(lia)) as H0. cbn [nth] in H0. apply CV_plus; [apply CV_mult; apply CV_minus; try apply cv_const; exact H0|].
      apply IH; auto; [intros k; specialize (LU k); destruct (U k); [discriminate|]; injection LU as LU; exact LU|].
      intros i Hi e He. destruct (H (S i) ltac:(lia) e He) as (N & HN). exists N. intros k Hk. specialize (HN k Hk). specialize (LU k).
      destruct (U k); [discriminate|]. exact HN. }
    intros e He. destruct (C e He) as (N & HN). exists N. intros k Hk. rewrite E. exact (HN k Hk).
Qed.

Section Limit.
  Variables (n : nat) (g : rvec -> R) (xs : list rvec).
  Hypothesis HF : Forall (good n g) xs.
  Variable rho : R.
  Hypothesis Hrho : 0 <= rho < 1.
  Hypothesis Hcon : forall v, length v = n -> within n xs v -> norm (sweep g xs v) <= rho * norm v.
  Variable ds : rvec.
  Hypothesis Ld : length ds = length xs.
  Notation P := (pass g ds xs).
  Definition after_passes (E : nat) (w : rvec) : rvec := Nat.iter E P w.

  Lemma ap_length E w : length w = n -> length (after_passes E w) = n.
  Proof. intros Lw. induction E as [|E IH]; [exact Lw|]. cbn [after_passes Nat.iter]. apply (pass_length n g xs HF). exact IH. Qed.
  Lemma P_nonexp u w : length u = n -> length w = n -> dist (P u) (P w) <= dist u w.
  Proof.
    intros Lu Lw. rewrite !dist_norm, (pass_sweep n g xs HF) by auto. unfold norm. apply sqrt_le_1; try apply normsq_nonneg.
    destruct (sweep_shrinks n g xs HF) as (K & HK & HE). assert (Lv : length (vsub u w) = n) by (apply vsub_length; auto).
    specialize (HE _ Lv). pose proof (energy_nonneg xs (vsub u w)). assert (0 <= normsq (vsub u w) - normsq (sweep g xs (vsub u w))) by (apply Rmult_le_reg_l with K; lra). lra.
  Qed.
  Lemma fixed_perp u w : length u = n -> length w = n -> P u = u -> P w = w -> perp xs (vsub u w).
  Proof.
    intros Lu Lw Fu Fw. assert (Lv : length (vsub u w) = n) by (apply vsub_length; auto).
    pose proof (pass_sweep n g xs HF ds u w Ld Lu Lw) as E. rewrite Fu, Fw in E. destruct (sweep_shrinks n g xs HF) as (K & HK & HE).
    specialize (HE _ Lv). rewrite <- E in HE. apply energy_perp. pose proof (energy_nonneg xs (vsub u w)). lra.
  Qed.
  Lemma within_trans a b c : length a = n -> length b = n -> length c = n -> within n xs (vsub a b) -> within n xs (vsub b c) -> within n xs (vsub a c).
  Proof.
    intros La Lb Lc H1 H2 u Lu Hu. specialize (H1 u Lu Hu). specialize (H2 u Lu Hu). rewrite Rdot_vsub_l in * by congruence. lra.
  Qed.
  Lemma ap_within E w : length w = n -> within n xs (vsub (after_passes E w) w).
  Proof.
    intros Lw. induction E as [|E IH]; [intros u Lu Hu; cbn; rewrite Rdot_vsub_l by congruence; lra|].
    apply (within_trans _ (after_passes E w)); auto; try (apply ap_length; auto). apply (pass_within n g xs HF); auto. apply ap_length; auto.
  Qed.
  (** two trajectories that start in the same translate of the span approach each other *)
  Lemma ap_contract E u w : length u = n -> length w = n -> within n xs (vsub u w) ->
    within n xs (vsub (after_passes E u) (after_passes E w)) /\ dist (after_passes E u) (after_passes E w) <= rho ^ E * dist u w.
  Proof.
    intros Lu Lw Hw. induction E as [|E (I1 & I2)]; [split; [exact Hw|cbn; lra]|]. pose proof (ap_length E u Lu) as L1. pose proof (ap_length E w Lw) as L2.
    assert (Lv : length (vsub (after_passes E u) (after_passes E w)) = n) by (apply vsub_length; auto).
    change (after_passes (S E) u) with (P (after_passes E u)). change (after_passes (S E) w) with (P (after_passes E w)).
    split.
    - rewrite (pass_sweep n g xs HF) by auto. apply (sweep_within n g xs HF); auto. apply incl_refl.
    - rewrite dist_norm, (pass_sweep n g xs HF) by auto. eapply Rle_trans; [apply Hcon; auto|]. rewrite <- dist_norm.
      change (rho ^ (S E)) with (rho * rho ^ E). rewrite Rmult_assoc. apply Rmult_le_compat_l; lra.
  Qed.
  Lemma ap_shift E w : after_passes (S E) w = after_passes E (P w).
  Proof. induction E as [|E IH]; [reflexivity|]. change (after_passes (S (S E)) w) with (P (after_passes (S E) w)). rewrite IH. reflexivity. Qed.
  Lemma ap_add E j w : after_passes (j + E) w = after_passes j (after_passes E w).
  Proof. induction j as [|j IH]; [reflexivity|]. change (after_passes (S j + E) w) with (P (after_passes (j + E) w)). rewrite IH. reflexivity. Qed.
  Lemma dist_sym u v : dist u v = dist v u.
  Proof. unfold dist, distsq. f_equal. revert v. unfold normsq, vsub. induction u as [|a u IH]; intros [|b v]; cbn [map2 Rdot]; try reflexivity. rewrite IH. ring. Qed.

  Lemma dist_self u : dist u u = 0.
  Proof.
    unfold dist, distsq. replace (normsq (vsub u u)) with 0; [apply sqrt_0|]. unfold normsq, vsub. induction u as [|a u IH]; cbn [map2 Rdot]; [reflexivity|]. rewrite <- IH. ring.
  Qed.

  Variable w0 : rvec.
  Hypothesis L0 : length w0 = n.
  Notation W := (fun E => after_passes E w0).
  Let B := dist w0 (P w0) / (1 - rho).
  Lemma B_pos : 0 <= B. Proof. unfold B, Rdiv. apply Rmult_le_pos; [apply sqrt_pos|left; apply Rinv_0_lt_compat; lra]. Qed.
  Lemma one_move w j : length w = n -> dist w (after_passes j w) * (1 - rho) <= dist w (P w).
  Proof.
    intros Lw. enough (H : dist w (after_passes j w) * (1 - rho) <= (1 - rho ^ j) * dist w (P w)).
    { assert (0 <= rho ^ j * dist w (P w)) by (apply Rmult_le_pos; [apply pow_le; lra|apply sqrt_pos]). lra. }
    induction j as [|j IH]; [change (after_passes 0 w) with w; rewrite dist_self; cbn [pow]; lra|].
    assert (LP : length (P w) = n) by (apply (pass_length n g xs HF); auto).
    pose proof (dist_triangle w (after_passes j w) (after_passes (S j) w) n Lw (ap_length j w Lw) (ap_length (S j) w Lw)) as T.
    rewrite ap_shift in T at 2. pose proof (proj2 (ap_contract j w (P w) Lw LP ltac:(
      intros u Lu Hu; pose proof (pass_within n g xs HF ds w Ld Lw u Lu Hu) as Q; rewrite Rdot_vsub_l in * by congruence; lra))) as C.
    set (D := dist w (P w)) in *. set (r := rho ^ j) in *. change (rho ^ (S j)) with (rho * r).
    assert (M : dist w (after_passes (S j) w) * (1 - rho) <= (dist w (after_passes j w) + r * D) * (1 - rho)) by (apply Rmult_le_compat_r; lra). lra.
  Qed.
  Lemma far E j : dist (W E) (W (j + E)%nat) <= rho ^ E * B.
  Proof.
    assert (LE : length (W E) = n) by (apply ap_length; auto). pose proof (one_move (W E) j LE) as H. cbv beta in *. rewrite <- ap_add in H.
    assert (LP : length (P w0) = n) by (apply (pass_length n g xs HF); auto).
    assert (C : dist (after_passes E w0) (P (after_passes E w0)) <= rho ^ E * dist w0 (P w0)).
    { change (P (after_passes E w0)) with (after_passes (S E) w0). rewrite ap_shift. apply (proj2 (ap_contract E w0 (P w0) L0 LP ltac:(
        intros u Lu Hu; pose proof (pass_within n g xs HF ds w0 Ld L0 u Lu Hu) as Q; rewrite Rdot_vsub_l in * by congruence; lra))). }
    unfold B, Rdiv. rewrite <- Rmult_assoc. apply Rmult_le_reg_r with (1 - rho); [lra|]. rewrite (Rmult_assoc _ (/ (1 - rho))), Rinv_l, Rmult_1_r by lra. lra.
  Qed.
  Lemma coordinate i : Cauchy_crit (fun E => nth i (W E) 0).
  Proof.
    intros e He. pose proof B_pos as HB. destruct (pow_lt_1_zero rho ltac:(rewrite Rabs_right; lra) (e / (B + 1))) as (N & HN); [apply Rdiv_lt_0_compat; lra|].
    exists N. assert (G : forall p q, (N <= p)%nat -> (p <= q)%nat -> R_dist (nth i (W p) 0) (nth i (W q) 0) < e).
    { intros p q Hp Hq. replace q with ((q - p) + p)%nat by lia. set (j := (q - p)%nat). unfold R_dist.
      assert (LE : length (W p) = n) by (apply ap_length; auto). assert (LE' : length (W (j + p)%nat) = n) by (apply ap_length; auto).
      rewrite <- nth_vsub by (rewrite LE, LE'; reflexivity). eapply Rle_lt_trans; [apply nth_norm|]. rewrite <- dist_norm. eapply Rle_lt_trans; [apply far|].
      specialize (HN p Hp). pose proof (Rle_abs (rho ^ p)) as Ha. assert (H0 : 0 <= rho ^ p) by (apply pow_le; lra).
      apply Rle_lt_trans with (rho ^ p * (B + 1)); [apply Rmult_le_compat_l; lra|]. replace e with (e / (B + 1) * (B + 1)) by (field; lra). apply Rmult_lt_compat_r; lra. }
    intros p q Hp Hq. destruct (Nat.le_ge_cases p q) as [Hpq|Hpq]; [apply G; auto|]. unfold R_dist. rewrite Rabs_minus_sym. apply G; auto.
  Qed.
  Definition limit : rvec := map (fun i => proj1_sig (R_complete _ (coordinate i))) (seq 0 n).
  Lemma limit_length : length limit = n. Proof. unfold limit. rewrite map_length, seq_length. reflexivity. Qed.
  Lemma limit_cv i : (i < n)%nat -> Un_cv (fun E => nth i (W E) 0) (nth i limit 0).
  Proof.
    intros Hi. unfold limit. rewrite (nth_indep _ 0 (proj1_sig (R_complete _ (coordinate 0%nat)))) by (rewrite map_length, seq_length; exact Hi).
    rewrite (map_nth (fun i => proj1_sig (R_complete _ (coordinate i)))). rewrite seq_nth by exact Hi. cbn [Nat.add]. apply (proj2_sig (R_complete _ (coordinate i))).
  Qed.
  Lemma limit_near E : dist (W E) limit <= rho ^ E * B.
  Proof.
    unfold dist. assert (R0 : 0 <= rho ^ E * B) by (apply Rmult_le_pos; [apply pow_le; lra|apply B_pos]). rewrite <- (sqrt_square _ R0). apply sqrt_le_1; [apply normsq_nonneg|apply Rmult_le_pos; exact R0|].
    assert (C : Un_cv (fun j => distsq (W E) (W (j + E)%nat)) (distsq (W E) limit)).
    { apply (cv_distsq n); [apply limit_length|apply ap_length; auto|intros; apply ap_length; auto|]. intros i Hi e He. destruct (limit_cv i Hi e He) as (N & HN).
      exists N. intros k Hk. apply HN. lia. }
    apply (cv_upper _ _ _ C). intros j. pose proof (far E j) as H. unfold dist in H. rewrite <- (sqrt_sqrt (distsq _ _) (normsq_nonneg _)).
    apply Rmult_le_compat; auto; apply sqrt_pos.
  Qed.
  Lemma limit_fixed : P limit = limit.
  Proof.
    pose proof limit_length as LL. assert (LP : length (P limit) = n) by (apply (pass_length n g xs HF); auto).
    apply (vsub_self_zero _ _ n); auto. assert (Z : dist (P limit) limit = 0).
    { apply (tiny _ (2 * B) rho Hrho). intros E. assert (L1 : length (W E) = n) by (apply ap_length; auto). assert (L2 : length (W (S E)) = n) by (apply ap_length; auto).
      rewrite Rabs_right by (apply Rle_ge, sqrt_pos). eapply Rle_trans; [apply (dist_triangle _ (W (S E)) _ n); auto|].
      pose proof (P_nonexp limit (W E) LL L1) as H1. pose proof (limit_near E) as H2. pose proof (limit_near (S E)) as H3. cbv beta in *. rewrite (dist_sym limit) in H1.
      change (P (after_passes E w0)) with (after_passes (S E) w0) in H1. assert (rho ^ S E * B <= rho ^ E * B).
      { apply Rmult_le_compat_r; [apply B_pos|]. cbn [pow]. assert (0 <= rho ^ E) by (apply pow_le; lra). assert (rho * rho ^ E <= 1 * rho ^ E) by (apply Rmult_le_compat_r; lra). lra. }
      lra. }
    unfold dist in Z. apply sqrt_eq_0 in Z; [exact Z|apply normsq_nonneg].
  Qed.
  Lemma limit_within : within n xs (vsub w0 limit).
  Proof.
    intros u Lu Hu. pose proof limit_length as LL. apply (tiny _ (B * norm u) rho Hrho). intros E. pose proof (ap_within E w0 L0 u Lu Hu) as H. assert (L1 : length (W E) = n) by (apply ap_length; auto). cbv beta in L1.
    rewrite Rdot_vsub_l in * by congruence. replace (Rdot w0 u - Rdot limit u) with (Rdot (vsub (W E) limit) u) by (rewrite Rdot_vsub_l by congruence; cbv beta; lra).
    apply Rle_trans with (norm (vsub (W E) limit) * norm u).
    - apply Rsqr_incr_0_var; [|apply Rmult_le_pos; apply norm_pos]. rewrite <- Rsqr_abs. unfold Rsqr.
      replace (norm (vsub (W E) limit) * norm u * (norm (vsub (W E) limit) * norm u)) with ((norm (vsub (W E) limit) * norm (vsub (W E) limit)) * (norm u * norm u)) by ring.
      rewrite !norm_sq. apply Cauchy_Schwarz.
    - rewrite <- Rmult_assoc. apply Rmult_le_compat_r; [apply norm_pos|]. exact (limit_near E).
  Qed.
  Lemma limit_rate E : dist (W E) limit <= rho ^ E * dist w0 limit.
  Proof.
    pose proof (proj2 (ap_contract E w0 limit L0 limit_length limit_within)) as H.
    assert (F : after_passes E limit = limit) by (clear H; induction E as [|E IH]; [reflexivity|]; change (after_passes (S E) limit) with (P (after_passes E limit)); rewrite IH; apply limit_fixed).
    rewrite F in H. exact H.
  Qed.
  Lemma limit_nearest u : length u = n -> P u = u -> dist w0 limit <= dist w0 u.
  Proof.
    intros Lu Fu. pose proof limit_length as LL. pose proof (fixed_perp limit u LL Lu limit_fixed Fu) as Hp.
    assert (Lv : length (vsub limit u) = n) by (apply vsub_length; auto). pose proof (limit_within _ Lv Hp) as Z.
    unfold dist. apply sqrt_le_1; try apply normsq_nonneg. unfold distsq. replace (vsub w0 u) with (vadd (vsub w0 limit) (vsub limit u)).
    - assert (Lw : length (vsub w0 limit) = n) by (apply vsub_length; auto). rewrite normsq_vadd by congruence. rewrite Z. pose proof (normsq_nonneg (vsub limit u)). lra.
    - apply nth_ext0; [rewrite (vadd_length _ _ n), (vsub_length _ _ n); auto; apply vsub_length; auto|]. intros i _. rewrite nth_vadd by (rewrite !(vsub_length _ _ n); auto). rewrite !nth_vsub by congruence. ring.
  Qed.
End Limit.

(** ** Specification *)
(** LMS with a step size, or NLMS with a step size and regularisation, that is stable for each of the inputs xs *)
Definition stable_for (c : ext R) (mu : R) (xs : list rvec) : Prop :=
  match c with
  | XLMS => 0 < mu /\ forall v, In v xs -> mu * normsq v < 2
  | XNLMS eps => 0 < mu /\ forall v, In v xs -> 0 < eps + normsq v /\ mu * normsq v < 2 * (eps + normsq v)
  | _ => False
  end.
(** the factor of e x in the increment *)
Definition gain_of (c : ext R) (mu : R) (x : rvec) : R :=
  match c with XLMS => mu | XNLMS eps => mu / (eps + normsq x) | _ => 0 end.

Section S.
  Variable solve : list rvec -> list rvec -> option (list rvec).
  #[local] Hint Extern 0 (Num R) => exact (RNum solve) : typeclass_instances.
  Notation obj := (obj R).

  (** the filter after E calls of run with the same data *)
  Definition after_epochs (E : nat) (d : rvec) (x : list rvec) (o : obj) : obj := Nat.iter E (fun o => fst (run d x o)) o.
  (** a filter of class and settings (c, mu) with n weights *)
  Definition filter_of (n : nat) (c : ext R) (mu : R) (o : obj) : Prop := reachable n o /\ o_ext o = c /\ o_mu o = mu.
  (** one more epoch does not change the weights *)
  Definition stays (d : rvec) (x : list rvec) (o : obj) : Prop := o_w (fst (run d x o)) = o_w o.

  Lemma gain_textbook c mu x e : match c with XLMS | XNLMS _ => True | _ => False end -> textbook c mu e x = Some (vsc (gain_of c mu x * e) x).
  Proof. destruct c; intros H; try contradiction; reflexivity. Qed.
  Lemma run_pass n c mu (o : obj) d x : match c with XLMS | XNLMS _ => True | _ => False end -> wf n o -> o_ext o = c -> o_mu o = mu ->
    rows_of n x -> length d = length x -> x <> [] ->
    o_w (fst (run d x o)) = pass (gain_of c mu) d x (o_w o) /\ o_ext (fst (run d x o)) = c /\ o_mu (fst (run d x o)) = mu /\ wf n (fst (run d x o)).
  Proof.
    intros Hc Hwf Ec Em Hx Hl Hne. split; [|split; [|split; [|apply run_wf; auto]]]; destruct (run_fst n o d x Hwf Hx Hl Hne) as (h & ->); cbn [set_hist o_w o_ext o_mu].
    all: clear Hne; revert d o Hwf Ec Em Hl; induction x as [|x0 x IH]; intros [|d0 d] o Hwf Ec Em Hl; try discriminate Hl; try (cbn; first [reflexivity|assumption]).
    all: pose proof (Forall_inv Hx) as Lx; pose proof (Forall_inv_tail Hx) as Hx'; assert (Lw : length (o_w o) = n) by apply Hwf.
    all: pose proof (adapt_textbook solve o d0 x0 (vsc (gain_of c mu x0 * (d0 - Rdot (o_w o) x0)) x0) ltac:(congruence) ltac:(rewrite Ec, Em; apply gain_textbook; exact Hc)) as Ha.
    all: cbn [adapt_all]; unfold bind; rewrite Ha.
    all: assert (Hwf' : wf n (set_w (vadd (o_w o) (vsc (gain_of c mu x0 * (d0 - Rdot (o_w o) x0)) x0)) o))
           by (destruct Hwf as (A1 & A2 & A3); split; [|split]; cbn [set_w o_w o_n o_ext]; auto; apply vadd_length; rewrite ?vsc_length; auto).
    all: rewrite (IH Hx' d _ Hwf' Ec Em ltac:(injection Hl as Hl; exact Hl)); reflexivity.
  Qed.

  Lemma stable_good n c mu xs : stable_for c mu xs -> rows_of n xs -> Forall (good n (gain_of c mu)) xs.
  Proof.
    intros Hs Hx. unfold rows_of in Hx. rewrite Forall_forall in *. intros v Hv. split; [apply Hx; exact Hv|]. destruct c; try contradiction; cbn [gain_of stable_for] in *.
    - destruct Hs as (Hm & Hs). split; [exact Hm|apply Hs; exact Hv].
    - destruct Hs as (Hm & Hs). destruct (Hs v Hv) as (H1 & H2). split; [apply Rdiv_lt_0_compat; auto|].
      apply Rmult_lt_reg_r with (eps + normsq v); [exact H1|]. replace (mu / (eps + normsq v) * normsq v * (eps + normsq v)) with (mu * normsq v) by (field; lra). exact H2.
  Qed.
  Lemma stable_class c mu xs : stable_for c mu xs -> match c with XLMS | XNLMS _ => True | _ => False end.
  Proof. destruct c; cbn; auto. Qed.
  Lemma epochs_pass n c mu (o : obj) d x E : stable_for c mu x -> filter_of n c mu o -> rows_of n x -> length d = length x -> x <> [] ->
    o_w (after_epochs E d x o) = after_passes (gain_of c mu) x d E (o_w o) /\ o_ext (after_epochs E d x o) = c /\ o_mu (after_epochs E d x o) = mu /\ wf n (after_epochs E d x o).
  Proof.
    intros Hs (Hr & Ec & Em) Hx Hl Hne. induction E as [|E (I1 & I2 & I3 & I4)].
    - split; [reflexivity|]. split; [exact Ec|]. split; [exact Em|]. apply reachable_wf. exact Hr.
    - change (after_epochs (S E) d x o) with (fst (run d x (after_epochs E d x o))).
      destruct (run_pass n c mu (after_epochs E d x o) d x (stable_class _ _ _ Hs) I4 I2 I3 Hx Hl Hne) as (J1 & J2 & J3 & J4).
      split; [rewrite J1, I1; reflexivity|]. split; [exact J2|]. split; [exact J3|exact J4].
  Qed.

  (** the weights at the end of the epochs converge, at a rate that depends on the inputs only, to the weights that an epoch does not
      change, and among these to the ones nearest to the initial weights *)
  Theorem C107_epochs : forall n c mu x, stable_for c mu x -> rows_of n x -> x <> [] ->
    exists rho, 0 <= rho < 1 /\ forall (o : obj) d, filter_of n c mu o -> length d = length x ->
      exists lim, length lim = n /\
        (forall E, dist (o_w (after_epochs E d x o)) lim <= rho ^ E * dist (o_w o) lim) /\
        dist (o_w o) lim <= dist (o_w o) (o_w (fst (run d x o))) / (1 - rho) /\
        (forall o2 : obj, filter_of n c mu o2 -> o_w o2 = lim -> stays d x o2) /\
        (forall o2 : obj, filter_of n c mu o2 -> stays d x o2 -> dist (o_w o) lim <= dist (o_w o) (o_w o2)).
  Proof.
    intros n c mu x Hs Hx Hne. pose proof (stable_good n c mu x Hs Hx) as HF. destruct (contraction n (gain_of c mu) x HF) as (rho & Hrho & Hcon).
    exists rho. split; [exact Hrho|]. intros o d Ho Hl. assert (L0 : length (o_w o) = n) by (apply reachable_wf; apply Ho).
    set (lim := limit n (gain_of c mu) x HF rho Hrho Hcon d Hl (o_w o) L0). exists lim.
    assert (Fx : pass (gain_of c mu) d x lim = lim) by apply limit_fixed.
    split; [apply limit_length|]. split; [|split; [|split]].
    - intros E. rewrite (proj1 (epochs_pass n c mu o d x E Hs Ho Hx Hl Hne)). apply limit_rate.
    - pose proof (limit_near n (gain_of c mu) x HF rho Hrho Hcon d Hl (o_w o) L0 0) as H. fold lim in H. change (after_passes (gain_of c mu) x d 0 (o_w o)) with (o_w o) in H.
      destruct (run_pass n c mu o d x (stable_class _ _ _ Hs) (reachable_wf _ _ (proj1 Ho)) (proj1 (proj2 Ho)) (proj2 (proj2 Ho)) Hx Hl Hne) as (-> & _). cbn [pow] in H. rewrite Rmult_1_l in H. exact H.
    - intros o2 Ho2 Ew. unfold stays. destruct (run_pass n c mu o2 d x (stable_class _ _ _ Hs) (reachable_wf _ _ (proj1 Ho2)) (proj1 (proj2 Ho2)) (proj2 (proj2 Ho2)) Hx Hl Hne) as (-> & _).
      rewrite Ew. exact Fx.
    - intros o2 Ho2 Ew. unfold stays in Ew. destruct (run_pass n c mu o2 d x (stable_class _ _ _ Hs) (reachable_wf _ _ (proj1 Ho2)) (proj1 (proj2 Ho2)) (proj2 (proj2 Ho2)) Hx Hl Hne) as (E2 & _).
      rewrite E2 in Ew. apply limit_nearest; [|exact Ew]. apply reachable_wf. apply Ho2.
  Qed.

  Lemma fit_fixed n g xs u : Forall (good n g) xs -> length u = n -> forall ds, noise_free u ds xs -> length ds = length xs -> pass g ds xs u = u.
  Proof.
    intros HF Lu. induction xs as [|x xs IH]; intros [|d ds] Hu Hl; try discriminate Hl; [reflexivity|].
    pose proof (Forall_inv HF) as (Lx & _). unfold pass. cbn [combine fold_left fst snd]. pose proof (Hu 0%nat ltac:(cbn; lia)) as H0. cbn [nth] in H0. rewrite H0.
    replace (g x * (Rdot u x - Rdot u x)) with 0 by ring. rewrite vadd_vsc_0 by congruence.
    apply (IH (Forall_inv_tail HF)); [|injection Hl as Hl; exact Hl]. intros k Hk. apply (Hu (S k)). cbn [length]. lia.
  Qed.

  (** if some weights fit all the samples, the limit is, among all the weights that do, the one nearest to the initial weights *)
  Theorem C107_consistent : forall n c mu x, stable_for c mu x -> rows_of n x -> x <> [] ->
    exists rho, 0 <= rho < 1 /\ forall (o : obj) d u, filter_of n c mu o -> length d = length x -> length u = n -> noise_free u d x ->
      exists lim, length lim = n /\ noise_free lim d x /\
        (forall v, length v = n -> noise_free v d x -> dist (o_w o) lim <= dist (o_w o) v) /\
        (forall E, dist (o_w (after_epochs E d x o)) lim <= rho ^ E * dist (o_w o) lim).
  Proof.
    intros n c mu x Hs Hx Hne. pose proof (stable_good n c mu x Hs Hx) as HF. destruct (contraction n (gain_of c mu) x HF) as (rho & Hrho & Hcon).
    exists rho. split; [exact Hrho|]. intros o d u Ho Hl Lu Hu. assert (L0 : length (o_w o) = n) by (apply reachable_wf; apply Ho).
    set (lim := limit n (gain_of c mu) x HF rho Hrho Hcon d Hl (o_w o) L0). exists lim.
    assert (Fx : pass (gain_of c mu) d x lim = lim) by apply limit_fixed. assert (LL : length lim = n) by apply limit_length.
    split; [exact LL|]. split; [|split].
    - pose proof (fixed_perp n (gain_of c mu) x HF d Hl lim u LL Lu Fx (fit_fixed n _ x u HF Lu d Hu Hl)) as Hp. intros k Hk. rewrite (Hu k Hk).
      unfold perp in Hp. rewrite Forall_forall in Hp. specialize (Hp (nth k x []) (nth_In _ _ Hk)). rewrite Rdot_vsub_l in Hp; [lra|congruence|].
      rewrite Lu. symmetry. apply nth_rows; auto.
    - intros v Lv Hv. apply limit_nearest; [exact Lv|]. apply (fit_fixed n _ x v HF Lv d Hv Hl).
    - intros E. rewrite (proj1 (epochs_pass n c mu o d x E Hs Ho Hx Hl Hne)). apply limit_rate.
  Qed.

  (** with inputs that leave no direction out, the result of long training does not depend on the initial weights *)
  Theorem C107_unique : forall n c mu x d, stable_for c mu x -> rows_of n x -> length d = length x -> x <> [] ->
    (forall v, length v = n -> (forall k, (k < length x)%nat -> Rdot v (nth k x []) = 0) -> v = repeat 0 n) ->
    exists lim rho, length lim = n /\ 0 <= rho < 1 /\
      forall (o : obj) E, filter_of n c mu o -> dist (o_w (after_epochs E d x o)) lim <= rho ^ E * dist (o_w o) lim.
  Proof.
    intros n c mu x d Hs Hx Hl Hne Hex. pose proof (stable_good n c mu x Hs Hx) as HF. destruct (contraction n (gain_of c mu) x HF) as (rho & Hrho & Hcon).
    set (lim := fun w L0 => limit n (gain_of c mu) x HF rho Hrho Hcon d Hl w L0).
    assert (Lz : length (repeat 0 n) = n) by apply repeat_length. exists (lim (repeat 0 n) Lz), rho. split; [apply limit_length|]. split; [exact Hrho|].
    intros o E Ho. assert (L0 : length (o_w o) = n) by (apply reachable_wf; apply Ho).
    assert (Eq : lim (repeat 0 n) Lz = lim (o_w o) L0).
    { assert (L1 : length (lim (repeat 0 n) Lz) = n) by apply limit_length. assert (L2 : length (lim (o_w o) L0) = n) by apply limit_length.
      assert (F1 : pass (gain_of c mu) d x (lim (repeat 0 n) Lz) = lim (repeat 0 n) Lz) by apply limit_fixed.
      assert (F2 : pass (gain_of c mu) d x (lim (o_w o) L0) = lim (o_w o) L0) by apply limit_fixed.
      pose proof (fixed_perp n (gain_of c mu) x HF d Hl _ _ L1 L2 F1 F2) as Hp.
      apply (vsub_self_zero _ _ n); auto. rewrite (Hex _ (vsub_length _ _ n L1 L2)).
      - unfold normsq. apply Rdot_zero_l.
      - intros k Hk. unfold perp in Hp. rewrite Forall_forall in Hp. apply Hp. apply nth_In. exact Hk. }
    rewrite Eq. rewrite (proj1 (epochs_pass n c mu o d x E Hs Ho Hx Hl Hne)). apply limit_rate.
  Qed.

  Lemma run_fine n c (o : obj) d x : match c with XLMS | XNLMS _ => True | _ => False end -> wf n o -> o_ext o = c -> rows_of n x -> length d = length x -> x <> [] ->
    exists o' y e w, run d x o = (o', Ok (y, e, w)) /\ nth 0 w [] = o_w o.
  Proof.
    intros Hc Hwf Ec Hx Hl Hne. destruct (run_eq n o d x Hwf Hx Hl Hne) as (h & -> & _).
    destruct (adapt_all_ok n d x o Hwf Hx) as (o' & r & -> & _ & _ & _ & [-> | (ex & -> & He)]).
    - do 4 eexists. split; [reflexivity|]. destruct d, x; [congruence|discriminate|discriminate|reflexivity].
    - exfalso. unfold soft_exn in He. rewrite Ec in He. destruct c; try contradiction; destruct He.
  Qed.

  (** pretrained_run: the weights with which the test part starts are those after `epochs` epochs of the training part *)
  Theorem C107_pretrained : forall n c mu (o : obj) d x ntrain epochs k, stable_for c mu (firstn k x) -> filter_of n c mu o -> rows_of n x -> length d = length x ->
    (0 < k < length x)%nat -> ntrunc (nmul (nofnat (length d)) ntrain) = Z.of_nat k ->
    exists o' y e w, pretrained_run d x ntrain epochs o = (o', Ok (y, e, w)) /\
      nth 0 w [] = o_w (after_epochs epochs (firstn k d) (firstn k x) o).
  Proof.
    intros n c mu o d x ntrain epochs k Hs Ho Hx Hl Hk Hz.
    assert (Hx1 : rows_of n (firstn k x)) by (apply firstn_rows; exact Hx). assert (Hx2 : rows_of n (skipn k x)) by (apply skipn_rows; exact Hx).
    assert (Hl1 : length (firstn k d) = length (firstn k x)) by (rewrite !firstn_length; lia). assert (Hl2 : length (skipn k d) = length (skipn k x)) by (rewrite !skipn_length; lia).
    assert (Hn1 : firstn k x <> []) by (intros H; apply (f_equal (@length _)) in H; rewrite firstn_length in H; cbn in H; lia).
    assert (Hn2 : skipn k x <> []) by (intros H; apply (f_equal (@length _)) in H; rewrite skipn_length in H; cbn in H; lia).
    unfold pretrained_run. rewrite Hz.
    assert (S1 : forall (A : Type) (l : list A), length l = length x -> slice_to l (Z.of_nat k) = firstn k l /\ slice_from l (Z.of_nat k) = skipn k l).
    { intros A l Ll. unfold slice_to, slice_from, slice_idx. destruct (Z.ltb_spec (Z.of_nat k) 0); [lia|]. rewrite Ll. split; f_equal; lia. }
    destruct (S1 _ d Hl) as (E1 & E2). destruct (S1 _ x eq_refl) as (E3 & E4). rewrite E1, E2, E3, E4.
    set (d1 := firstn k d) in *. set (x1 := firstn k x) in *. destruct Ho as (Hr & Ec & Em). pose proof (reachable_wf _ _ Hr) as Hwf.
    set (m := bind (@run R (RNum solve) d1 x1) (fun _ => ret tt)) in *. 
    assert (Hrep : forall E (o1 : obj), wf n o1 -> o_ext o1 = c -> o_mu o1 = mu ->
      repeat_m E m o1 = (after_epochs E d1 x1 o1, Ok tt) /\ wf n (after_epochs E d1 x1 o1) /\ o_ext (after_epochs E d1 x1 o1) = c).
    { induction E as [|E IH]; intros o1 W1 C1 M1; [split; [reflexivity|split; assumption]|].
      destruct (run_pass n c mu o1 d1 x1 (stable_class _ _ _ Hs) W1 C1 M1 Hx1 Hl1 Hn1) as (_ & C2 & M2 & W2).
      destruct (run_fine n c o1 d1 x1 (stable_class _ _ _ Hs) W1 C1 Hx1 Hl1 Hn1) as (o2 & y2 & e2 & w2 & R2 & _). assert (Hm : m o1 = (o2, Ok tt)) by (unfold m, bind; rewrite R2; reflexivity).
      change (repeat_m (S E) m o1) with (bind m (fun _ => repeat_m E m) o1). unfold bind at 1. rewrite Hm.
      rewrite R2 in C2, M2, W2. cbn [fst] in C2, M2, W2. assert (Hsh : after_epochs (S E) d1 x1 o1 = after_epochs E d1 x1 o2).
      { clear -R2. induction E as [|E IH]; [change (fst (run d1 x1 o1) = o2); rewrite R2; reflexivity|].
        change (after_epochs (S (S E)) d1 x1 o1) with (fst (run d1 x1 (after_epochs (S E) d1 x1 o1))). rewrite IH. reflexivity. }
      rewrite Hsh. apply IH; assumption. }
    destruct (Hrep epochs o Hwf Ec Em) as (Er & W1 & C1). 
    destruct (run_fine n c _ _ _ (stable_class _ _ _ Hs) W1 C1 Hx2 Hl2 Hn2) as (o2 & y2 & e2 & w2 & R2 & Z). exists o2, y2, e2, w2. split; [|exact Z].
    change (bind (repeat_m epochs m) (fun _ => run (skipn k d) (skipn k x)) o = (o2, Ok (y2, e2, w2))). unfold bind at 1. rewrite Er. exact R2.
  Qed.

  (** the limit is not the least-squares solution: for one weight, two samples with the same input 1 and targets 1 and -1 (least squares: 0) *)
  Theorem C107_not_least_squares : forall mu (o : obj), 0 < mu < 2 -> filter_of 1 XLMS mu o ->
    forall E, Rabs (nth 0 (o_w (after_epochs E [1; -1] [[1]; [1]] o)) 0 - - mu / (2 - mu)) <= ((1 - mu) ^ 2) ^ E * Rabs (nth 0 (o_w o) 0 - - mu / (2 - mu)).
  Proof.
    intros mu o Hm Ho E. assert (Hs : stable_for XLMS mu [[1]; [1]]) by (split; [lra|]; intros v [<-|[<-|[]]]; unfold normsq; cbn; lra).
    assert (Hx : rows_of 1 [[1]; [1]]) by (repeat constructor). rewrite (proj1 (epochs_pass 1 XLMS mu o [1; -1] [[1]; [1]] E Hs Ho Hx eq_refl ltac:(discriminate))).
    assert (L0 : length (o_w o) = 1%nat) by (apply (reachable_wf 1); apply Ho). destruct (o_w o) as [|a [|]]; try discriminate L0. clear -Hm.
    enough (H : after_passes (gain_of XLMS mu) [[1]; [1]] [1; -1] E [a] = [((1 - mu) ^ 2) ^ E * (a - - mu / (2 - mu)) + - mu / (2 - mu)]).
    { rewrite H. cbn [nth]. replace (((1 - mu) ^ 2) ^ E * (a - - mu / (2 - mu)) + - mu / (2 - mu) - - mu / (2 - mu)) with (((1 - mu) ^ 2) ^ E * (a - - mu / (2 - mu))) by ring.
      rewrite Rabs_mult, (Rabs_right (((1 - mu) ^ 2) ^ E)); [lra|apply Rle_ge, pow_le, pow2_ge_0]. }
    induction E as [|E IH]; [change (after_passes (gain_of XLMS mu) [[1]; [1]] [1; -1] 0 [a]) with [a]; cbn [pow]; f_equal; field; lra|].
    change (after_passes (gain_of XLMS mu) [[1]; [1]] [1; -1] (S E) [a]) with (pass (gain_of XLMS mu) [1; -1] [[1]; [1]] (after_passes (gain_of XLMS mu) [[1]; [1]] [1; -1] E [a])).
    rewrite IH. set (q := ((1 - mu) ^ 2) ^ E). unfold pass. cbn [combine fold_left fst snd gain_of Rdot vsc map vadd map2]. change (((1 - mu) ^ 2) ^ S E) with ((1 - mu) ^ 2 * q). f_equal. field. lra.
  Qed.

  (** ** The hypotheses are satisfiable: LMS and NLMS with two weights, data that leave one direction out and data that do not, pretrained_run *)
  Example C107_hypotheses :
    let x := [[1; 1]; [1; 1]; [0; 1]] in
    stable_for XLMS (1 / 2) x /\ stable_for (XNLMS 1) (3 / 2) x /\ stable_for XLMS (1 / 2) (firstn 2 x) /\
    filter_of 2 XLMS (1 / 2) (fresh2 (1 / 2) XLMS) /\ filter_of 2 (XNLMS 1) (3 / 2) (fresh2 (3 / 2) (XNLMS 1)) /\ rows_of 2 x /\ noise_free [1; 2] [3; 3; 2] x /\
    (forall v, length v = 2%nat -> (forall k, (k < length x)%nat -> Rdot v (nth k x []) = 0) -> v = repeat 0 2) /\
    perp (firstn 2 x) [1; -1] /\
    ntrunc (nmul (nofnat 3) (7 / 10)) = 2%Z /\
    (exists o : obj, filter_of 1 XLMS 1 o).
  Proof.
    intros x. assert (N1 : normsq [1; 1] = 2) by (unfold normsq; cbn; ring). assert (N2 : normsq [0; 1] = 1) by (unfold normsq; cbn; ring).
    split; [split; [lra|]; intros v [<-|[<-|[<-|[]]]]; rewrite ?N1, ?N2; lra|].
    split; [split; [lra|]; intros v [<-|[<-|[<-|[]]]]; rewrite ?N1, ?N2; lra|].
    split; [split; [lra|]; intros v [<-|[<-|[]]]; rewrite ?N1, ?N2; lra|].
    split; [split; [apply (fresh2_reachable solve (1 / 2) None None None KLMS); reflexivity|split; reflexivity]|].
    split; [split; [apply (fresh2_reachable solve (3 / 2) (Some 1) None None KNLMS); reflexivity|split; reflexivity]|].
    split; [repeat constructor|]. split; [intros [|[|[|k]]] Hk; cbn in *; try lra; lia|].
    split.
    { intros [|a [|b [|]]] Lv Hv; try discriminate Lv. pose proof (Hv 0%nat ltac:(cbn; lia)) as H0. pose proof (Hv 2%nat ltac:(cbn; lia)) as H2. cbn in H0, H2.
      assert (b = 0) by lra. assert (a = 0) by lra. subst. reflexivity. }
    split; [repeat constructor; cbn; ring|]. split.
    { change (Rtrunc (IZR 3 * (7 / 10)) = 2%Z). apply trunc_floor; lra. }
    exists (mkObj [0] 1 1 None XLMS). split; [|split; reflexivity].
    apply (reach_new 1 rngR KLMS (mkKw (Some 1%Z) (Some 1) (Some (WStr "zeros")) None None None None None None None None false)); [apply rngR_ok|split; intros ? H; discriminate H|reflexivity|reflexivity].
  Qed.
End S.
