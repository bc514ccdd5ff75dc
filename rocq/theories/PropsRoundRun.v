(** C79: LMS and NLMS on IEEE binary64 stay as close to exact arithmetic as the rounding errors of their steps add up to. *)
From Coq Require Import ZArith QArith Qreals Reals Lra Psatz Permutation Uint63 FloatOps FloatAxioms SpecFloat.
From Coq Require PrimFloat.
From Flocq Require Import Core BinarySingleNaN Plus_error.
From Flocq Require IEEE754.PrimFloat.
From Verif Require Import Py Num NumF Numpy Filters Registry Spec StructProofs RunProofs Reach RMat RVec RFilter PropsStability PropsTracking FloatErr PropsRound.
Open Scope R_scope.
#[local] Existing Instance Flocq.IEEE754.PrimFloat.Hprec.
#[local] Existing Instance Flocq.IEEE754.PrimFloat.Hmax.

(** ** Specification *)
(** what one step w -> w' with input x, target d, output y and error e can be off in coordinate i, when the exact step moves by
    g * (d - w.x) * x: rounding of w', of the increment, of the rate (by at most rho), of the error *)
Definition step_slack (n : nat) (g rho : R) (w w' x : rvec) (d y e : R) (i : nat) : R :=
  uro * Rabs (nth i w' 0) +
  (((1 + uro) ^ 2 - 1) * ((g + rho) * Rabs (nth i x 0 * e)) + eta * ((1 + uro) * Rabs e + 1)) +
  Rabs (nth i x 0) * (rho * Rabs e + g * (uro * Rabs (d - y) + dot_slack n (sumn n (fun j => Rabs (nth j w 0 * nth j x 0))))).
(** the vector of the n numbers f 0 .. f (n-1) *)
Definition tab (n : nat) (f : nat -> R) : rvec := map f (seq 0 n).
(** NLMS: relative error of eps + x.x, and error of mu / (eps + x.x) *)
Definition kappa (n : nat) (eps : R) (x : rvec) : R := uro + (1 + uro) * dot_slack n (normsq x) / (eps + normsq x).
Definition rate_slack (n : nat) (mu eps : R) (x : rvec) : R :=
  mu / (eps + normsq x) * ((kappa n eps x + uro) / (1 - kappa n eps x)) + eta.

(** ** Lemmas *)
Lemma tab_length n f : length (tab n f) = n.
Proof. unfold tab. rewrite map_length, seq_length. reflexivity. Qed.
Lemma tab_nth n f i : (i < n)%nat -> nth i (tab n f) 0 = f i.
Proof. intros H. unfold tab. rewrite (nth_indep _ 0 (f 0%nat)) by (rewrite map_length, seq_length; auto). rewrite map_nth, seq_nth by auto. reflexivity. Qed.
Lemma normsq_sumn n v : length v = n -> normsq v = sumn n (fun i => nth i v 0 * nth i v 0).
Proof. intros H. apply Rdot_sumn; auto. Qed.
Lemma norm_le n u b : length u = n -> length b = n -> (forall i, (i < n)%nat -> Rabs (nth i u 0) <= nth i b 0) -> norm u <= norm b.
Proof.
  intros Hu Hb H. apply sqrt_le_1_alt. rewrite !(normsq_sumn n) by auto. apply sumn_le. intros i Hi.
  rewrite <- (Rabs_pos_eq (nth i u 0 * nth i u 0)) by apply Rle_0_sqr. rewrite Rabs_mult.
  apply Rmult_le_compat; try apply Rabs_pos; auto.
Qed.
Lemma vals_nth (u : list float) i : nth i (map val u) 0 = val (nth i u PrimFloat.zero).
Proof. change 0 with (val PrimFloat.zero). apply map_nth. Qed.

(** the exact step is nonexpansive *)
Lemma move_close n w z x g d : length w = n -> length z = n -> length x = n -> 0 <= g -> g * normsq x <= 2 ->
  dist (vadd w (vsc (g * (d - Rdot w x)) x)) (vadd z (vsc (g * (d - Rdot z x)) x)) <= dist w z.
Proof.
  intros Lw Lz Lx Hg H2. set (z0 := repeat 0 n). assert (L0 : length z0 = n) by apply repeat_length.
  assert (Lv : forall a b, length a = n -> length b = n -> length (vadd a b) = n) by (intros; apply vadd_length; auto).
  assert (Ls : forall a b, length a = n -> length b = n -> length (vsub a b) = n) by (intros; apply vsub_length; auto).
  assert (Lc : forall c a, length a = n -> length (vsc c a) = n) by (intros; rewrite vsc_length; auto).
  assert (D0 : Rdot z0 x = 0). { rewrite (Rdot_sumn n) by auto. transitivity (sumn n (fun _ => 0)); [|apply sumn_0]. apply sumn_ext; intros i Hi. unfold z0. rewrite nth_repeat. ring. }
  pose proof (gradient_move n (vsub w z) z0 x g 0 (Ls _ _ Lw Lz) L0 Lx Hg H2) as H.
  rewrite D0, Rabs_R0, Rmult_0_l, Rmult_0_r, !Rplus_0_r in H.
  assert (Hs0 : forall a, length a = n -> vsub a z0 = a).
  { intros a Ha. apply nth_ext0; [rewrite (Ls a z0 Ha L0); auto|]. intros i _. rewrite nth_vsub by congruence. unfold z0. rewrite nth_repeat. ring. }
  rewrite !dist_norm, (Hs0 (vsub w z) (Ls _ _ Lw Lz)) in H.
  rewrite (Hs0 (vadd (vsub w z) (vsc (g * (0 - Rdot (vsub w z) x)) x))) in H by auto.
  rewrite !dist_norm. eapply Rle_trans; [|exact H]. right. f_equal. apply nth_ext0.
  - rewrite (Ls (vadd w _) (vadd z _)) by auto. rewrite Lv; auto.
  - intros i _. assert (Hd : Rdot (vsub w z) x = Rdot w x - Rdot z x).
    { rewrite !(Rdot_sumn n) by auto. rewrite <- sumn_minus. apply sumn_ext; intros j Hj. rewrite nth_vsub by congruence. ring. }
    rewrite Hd. rewrite nth_vsub by (rewrite !Lv; auto). rewrite !nth_vadd by (rewrite ?Ls, ?Lc; auto). rewrite nth_vsub by congruence. rewrite !nth_vsc. ring.
Qed.

Lemma drift_gen n N (WF WR X SL : nat -> rvec) (D G : nat -> R) :
  (forall k, (k <= N)%nat -> length (WF k) = n /\ length (WR k) = n) ->
  (forall k, (k < N)%nat -> length (X k) = n /\ length (SL k) = n /\ 0 <= G k /\ G k * normsq (X k) <= 2) ->
  WF 0%nat = WR 0%nat ->
  (forall k, (k < N)%nat -> WR (S k) = vadd (WR k) (vsc (G k * (D k - Rdot (WR k) (X k))) (X k))) ->
  (forall k i, (k < N)%nat -> (i < n)%nat ->
    Rabs (nth i (WF (S k)) 0 - (nth i (WF k) 0 + G k * (D k - Rdot (WF k) (X k)) * nth i (X k) 0)) <= nth i (SL k) 0) ->
  forall k, (k <= N)%nat -> dist (WF k) (WR k) <= sumn k (fun j => norm (SL j)).
Proof.
  intros HL HX H0 HR HF. induction k as [|k IH]; intros Hk.
  - rewrite H0. cbn [sumn]. right. rewrite dist_norm. unfold norm. replace (normsq (vsub (WR 0%nat) (WR 0%nat))) with 0; [apply sqrt_0|].
    destruct (HL 0%nat Hk) as (_ & L). rewrite (normsq_sumn n) by (apply vsub_length; auto). transitivity (sumn n (fun _ => 0)); [symmetry; apply sumn_0|]. apply sumn_ext; intros i Hi.
    rewrite nth_vsub by reflexivity. ring.
  - specialize (IH ltac:(lia)). destruct (HL k ltac:(lia)) as (L1 & L2). destruct (HL (S k) Hk) as (L3 & L4). destruct (HX k ltac:(lia)) as (LX & LS & G1 & G2).
    set (v := vadd (WF k) (vsc (G k * (D k - Rdot (WF k) (X k))) (X k))).
    assert (Lv : length v = n) by (apply vadd_length; [exact L1|rewrite vsc_length; exact LX]).
    eapply Rle_trans; [apply (dist_triangle _ v _ n); auto|]. cbn [sumn]. rewrite Rplus_comm. apply Rplus_le_compat.
    + eapply Rle_trans; [|exact IH]. rewrite HR by lia. apply (move_close n); auto.
    + rewrite dist_norm. apply (norm_le n); [apply vsub_length; auto|exact LS|]. intros i Hi.
      rewrite nth_vsub by congruence. unfold v. rewrite nth_vadd by (rewrite vsc_length; congruence). rewrite nth_vsc.
      apply HF; auto; lia.
Qed.

Section Step.
  Variable solve : list (list float) -> list (list float) -> option (list (list float)).
  Variables (tanh exp : float -> float) (power : float -> float -> float) (sum : list float -> float) (dot : list float -> list float -> float).
  Hypothesis dot_ok : forall u v, length u = length v -> evaluates (combine u v) (dot u v).

  (** addition, relative to the result *)
  Lemma add_err_round a b : fin (PrimFloat.add a b) -> Rabs (val (PrimFloat.add a b) - (val a + val b)) <= uro * Rabs (val (PrimFloat.add a b)).
  Proof.
    intros H. rewrite (add_round a b H), !val_B.
    destruct (FLT_plus_error_N_round_ex radix2 (SpecFloat.emin FloatOps.prec FloatOps.emax) FloatOps.prec (fun x => negb (Z.even x))
      (B2R (Flocq.IEEE754.PrimFloat.Prim2B a)) (B2R (Flocq.IEEE754.PrimFloat.Prim2B b))) as (d & Hd & E).
    - apply generic_format_B2R.
    - apply generic_format_B2R.
    - assert (Hd' : Rabs d <= uro) by (rewrite uro_bpow; exact Hd). clear Hd.
      match type of E with _ = ?r * _ => set (rr := r) in E end.
      match type of E with ?s = _ => change (Rabs (rr - s) <= uro * Rabs rr) end. rewrite E.
      replace (rr - rr * (1 + d)) with ((- d) * rr) by ring.
      rewrite Rabs_mult, Rabs_Ropp. apply Rmult_le_compat_r; [apply Rabs_pos|exact Hd'].
  Qed.

  Lemma two_mul c x e : fin (PrimFloat.mul (PrimFloat.mul c x) e) -> fin c /\ fin x /\ fin e /\
    Rabs (val (PrimFloat.mul (PrimFloat.mul c x) e) - val c * val x * val e) <=
      ((1 + uro) ^ 2 - 1) * Rabs (val c * val x * val e) + eta * ((1 + uro) * Rabs (val e) + 1).
  Proof.
    intros H. destruct (mul_round _ _ H) as (H1 & He & _). destruct (mul_round _ _ H1) as (Hc & Hx & _).
    split; [exact Hc|]. split; [exact Hx|]. split; [exact He|].
    destruct (mul_err _ _ H) as (d2 & h2 & Hd2 & Hh2 & ->). destruct (mul_err _ _ H1) as (d1 & h1 & Hd1 & Hh1 & ->).
    set (p := val c * val x). set (z := val e). pose proof uro_pos. pose proof eta_pos.
    replace ((p * (1 + d1) + h1) * z * (1 + d2) + h2 - p * z) with (((d1 + d2 + d1 * d2) * (p * z)) + (h1 * (1 + d2) * z + h2)) by ring.
    eapply Rle_trans; [apply Rabs_triang|]. apply Rplus_le_compat.
    - rewrite Rabs_mult. apply Rmult_le_compat_r; [apply Rabs_pos|].
      pose proof (Rabs_triang (d1 + d2) (d1 * d2)). pose proof (Rabs_triang d1 d2). rewrite Rabs_mult in *.
      assert (Rabs d1 * Rabs d2 <= uro * uro) by (apply Rmult_le_compat; try apply Rabs_pos; auto). lra.
    - eapply Rle_trans; [apply Rabs_triang|]. rewrite !Rabs_mult.
      assert (Rabs (1 + d2) <= 1 + uro) by (pose proof (Rabs_triang 1 d2); rewrite Rabs_R1 in *; lra).
      assert (Rabs h1 * Rabs (1 + d2) <= eta * (1 + uro)) by (apply Rmult_le_compat; try apply Rabs_pos; auto).
      assert (Rabs h1 * Rabs (1 + d2) * Rabs z <= eta * (1 + uro) * Rabs z) by (apply Rmult_le_compat_r; [apply Rabs_pos|auto]).
      lra.
  Qed.

  (** one step of w += (c * x) * e *)
  Lemma float_step n g rho (w x : list float) (c d : float) :
    let y := dot w x in let e := PrimFloat.sub d y in
    let w' := map2 PrimFloat.add w (map (fun a => PrimFloat.mul (PrimFloat.mul c a) e) x) in
    length w = n -> length x = n -> Forall fin w' -> fin y -> fin e -> 0 <= g -> Rabs (val c - g) <= rho ->
    forall i, (i < n)%nat ->
      Rabs (nth i (map val w') 0 - (nth i (map val w) 0 + g * (val d - Rdot (map val w) (map val x)) * nth i (map val x) 0)) <=
      step_slack n g rho (map val w) (map val w') (map val x) (val d) (val y) (val e) i.
  Proof.
    intros y e w' Lw Lx HF Hy He Hg Hrho i Hi.
    assert (Lw' : length w' = n) by (apply map2_length_eq; [exact Lw|rewrite map_length; exact Lx]).
    set (q := PrimFloat.mul (PrimFloat.mul c (nth i x PrimFloat.zero)) e).
    assert (Ew : nth i w' PrimFloat.zero = PrimFloat.add (nth i w PrimFloat.zero) q).
    { unfold w'. assert (G : forall (l1 l2 : list float), length l1 = length l2 -> (i < length l1)%nat ->
        nth i (map2 PrimFloat.add l1 l2) PrimFloat.zero = PrimFloat.add (nth i l1 PrimFloat.zero) (nth i l2 PrimFloat.zero)).
      { clear. revert i. intros i l1. revert i. induction l1 as [|a l1 IH]; intros i [|b l2] H Hi; cbn in H, Hi; try lia.
        destruct i as [|i]; [reflexivity|]. cbn [map2 nth]. apply IH; lia. }
      rewrite G by (rewrite ?map_length; lia). f_equal.
      rewrite (nth_indep _ PrimFloat.zero (PrimFloat.mul (PrimFloat.mul c PrimFloat.zero) e)) by (rewrite map_length; lia).
      exact (map_nth (fun a => PrimFloat.mul (PrimFloat.mul c a) e) x PrimFloat.zero i). }
    assert (Fw : fin (PrimFloat.add (nth i w PrimFloat.zero) q)).
    { rewrite <- Ew. rewrite Forall_forall in HF. apply HF, nth_In. lia. }
    pose proof (add_err_round _ _ Fw) as A1. destruct (add_fin _ _ Fw) as (_ & Fq).
    destruct (two_mul _ _ _ Fq) as (Fc & Fx & _ & A2). fold q in A2.
    (* the error *)
    destruct (dot_err dot dot_ok n w x Lw Lx Hy) as (_ & A3). fold y in A3.
    destruct (sub_err d y He) as (dl & Hdl & E4). fold e in E4.
    set (wv := map val w) in *. set (xv := map val x) in *.
    assert (Ed : Rdot wv xv = sumn n (fun i => val (nth i w PrimFloat.zero) * val (nth i x PrimFloat.zero))).
    { rewrite (Rdot_sumn n) by (unfold wv, xv; rewrite map_length; auto). apply sumn_ext; intros j _. unfold wv, xv. rewrite !vals_nth. reflexivity. }
    set (S1 := sumn n (fun j => Rabs (nth j wv 0 * nth j xv 0))).
    assert (ES : sumn n (fun i => Rabs (val (nth i w PrimFloat.zero) * val (nth i x PrimFloat.zero))) = S1).
    { apply sumn_ext; intros j _. unfold wv, xv. rewrite !vals_nth. reflexivity. }
    rewrite <- Ed, ES in A3.
    assert (A4 : Rabs (val e - (val d - Rdot wv xv)) <= uro * Rabs (val d - val y) + dot_slack n S1).
    { rewrite E4. replace ((val d - val y) * (1 + dl) - (val d - Rdot wv xv)) with (dl * (val d - val y) - (val y - Rdot wv xv)) by ring.
      eapply Rle_trans; [apply Rabs_triang|]. rewrite Rabs_Ropp, Rabs_mult.
      assert (Rabs dl * Rabs (val d - val y) <= uro * Rabs (val d - val y)) by (apply Rmult_le_compat_r; [apply Rabs_pos|exact Hdl]). lra. }
    unfold step_slack. fold S1. rewrite (vals_nth w' i), Ew. unfold wv at 1, xv at 2. rewrite !vals_nth.
    replace (nth i xv 0) with (val (nth i x PrimFloat.zero)) by (unfold xv; rewrite vals_nth; reflexivity).
    set (xi := val (nth i x PrimFloat.zero)) in *. set (wi := val (nth i w PrimFloat.zero)) in *. set (E := val d - Rdot wv xv) in *.
    set (s := uro * Rabs (val d - val y) + dot_slack n S1) in *. set (ev := val e) in *. set (cv := val c) in *.
    set (wn := val (PrimFloat.add (nth i w PrimFloat.zero) q)) in *. set (qv := val q) in *.
    replace (wn - (wi + g * E * xi)) with ((wn - (wi + qv)) + ((qv - cv * xi * ev) + xi * ((cv - g) * ev + g * (ev - E)))) by ring.
    eapply Rle_trans; [apply Rabs_triang|]. rewrite Rplus_assoc. apply Rplus_le_compat; [exact A1|].
    eapply Rle_trans; [apply Rabs_triang|]. apply Rplus_le_compat.
    - eapply Rle_trans; [exact A2|]. apply Rplus_le_compat_r. pose proof uro_pos. apply Rmult_le_compat_l; [nra|].
      rewrite Rmult_assoc, Rabs_mult. apply Rmult_le_compat_r; [apply Rabs_pos|].
      replace cv with (g + (cv - g)) by ring. eapply Rle_trans; [apply Rabs_triang|]. rewrite (Rabs_pos_eq g) by exact Hg. lra.
    - rewrite Rabs_mult. apply Rmult_le_compat_l; [apply Rabs_pos|]. eapply Rle_trans; [apply Rabs_triang|]. rewrite !Rabs_mult, (Rabs_pos_eq g) by exact Hg.
      apply Rplus_le_compat; [apply Rmult_le_compat_r; [apply Rabs_pos|exact Hrho]|apply Rmult_le_compat_l; [exact Hg|exact A4]].
  Qed.

  (** the rate of NLMS *)
  Lemma nlms_rate n (mu eps : float) (x : list float) : length x = n ->
    let P := PrimFloat.add eps (dot x x) in
    fin P -> fin (PrimFloat.div mu P) -> 0 <= val mu -> 0 < val eps + normsq (map val x) -> kappa n (val eps) (map val x) < 1 ->
    Rabs (val (PrimFloat.div mu P) - val mu / (val eps + normsq (map val x))) <= rate_slack n (val mu) (val eps) (map val x).
  Proof.
    intros Lx P FP Fc Hmu HP Hk. pose proof uro_pos as Hu. pose proof eta_pos as He.
    destruct (add_fin _ _ FP) as (_ & Fd). destruct (dot_err dot dot_ok n x x Lx Lx Fd) as (_ & A1).
    assert (Es : sumn n (fun i => val (nth i x PrimFloat.zero) * val (nth i x PrimFloat.zero)) = normsq (map val x)).
    { rewrite (normsq_sumn n) by (rewrite map_length; auto). apply sumn_ext; intros i _. rewrite vals_nth. reflexivity. }
    assert (Ea : sumn n (fun i => Rabs (val (nth i x PrimFloat.zero) * val (nth i x PrimFloat.zero))) = normsq (map val x)).
    { rewrite <- Es. apply sumn_ext; intros i _. apply Rabs_pos_eq, Rle_0_sqr. }
    rewrite Es, Ea in A1. set (Q := normsq (map val x)) in *. set (ds := dot_slack n Q) in *.
    set (p := val eps + Q) in *. destruct (add_err _ _ FP) as (d1 & Hd1 & EP). fold P in EP.
    assert (B1 : Rabs (val P - p) <= kappa n (val eps) (map val x) * p).
    { rewrite EP. eapply Rle_trans; [apply (round_step _ p d1 ds Hd1)|].
      - replace (val eps + val (dot x x) - p) with (val (dot x x) - Q) by (unfold p; ring). exact A1.
      - right. rewrite (Rabs_pos_eq p) by lra. unfold kappa. fold Q. fold ds p. field. lra. }
    set (k := kappa n (val eps) (map val x)) in *.
    assert (Hk0 : 0 <= k).
    { unfold k, kappa. fold Q. fold ds p. assert (0 <= ds) by (apply dot_slack_nonneg, normsq_nonneg).
      assert (0 <= (1 + uro) * ds / p) by (apply Rmult_le_pos; [nra|left; apply Rinv_0_lt_compat; exact HP]). lra. }
    assert (HPlow : (1 - k) * p <= val P) by (unfold Rabs in B1; destruct (Rcase_abs _); lra).
    assert (HPhigh : val P <= (1 + k) * p) by (unfold Rabs in B1; destruct (Rcase_abs _); lra).
    assert (Hkp : 0 < (1 - k) * p) by (apply Rmult_lt_0_compat; lra).
    assert (HPpos : 0 < val P) by lra.
    destruct (div_err mu P Fc FP ltac:(lra)) as (d & h & Hd & Hh & ->).
    set (m := val mu) in *. set (PP := val P) in *.
    replace (m / PP * (1 + d) + h - m / p) with (m * ((1 + d) / PP - / p) + h) by (field; lra).
    eapply Rle_trans; [apply Rabs_triang|]. unfold rate_slack. fold k. fold Q. fold p. apply Rplus_le_compat; [|exact Hh].
    rewrite Rabs_mult, (Rabs_pos_eq m) by exact Hmu. unfold Rdiv at 2. rewrite Rmult_assoc. apply Rmult_le_compat_l; [exact Hmu|].
    assert (Hdl : - uro <= d <= uro) by (unfold Rabs in Hd; destruct (Rcase_abs d); lra).
    assert (I1 : / PP <= / ((1 - k) * p)) by (apply Rinv_le_contravar; lra).
    assert (I2 : / ((1 + k) * p) <= / PP) by (apply Rinv_le_contravar; lra).
    assert (Hpi : 0 < / p) by (apply Rinv_0_lt_compat; lra). assert (HPi : 0 < / PP) by (apply Rinv_0_lt_compat; lra).
    rewrite Rinv_mult in I1, I2. set (ip := / p) in *. set (iP := / PP) in *.
    assert (Hk1 : 0 < / (1 - k)) by (apply Rinv_0_lt_compat; lra). assert (Hk2 : 0 < / (1 + k)) by (apply Rinv_0_lt_compat; lra).
    assert (Up : (1 + d) * iP - ip <= ip * ((k + uro) / (1 - k))).
    { apply Rle_trans with ((1 + uro) * (/ (1 - k) * ip) - ip).
      - assert ((1 + d) * iP <= (1 + uro) * (/ (1 - k) * ip)); [|lra]. apply Rmult_le_compat; try lra.
        assert (uro < 1). { unfold uro. rewrite <- Rinv_1. apply Rinv_lt_contravar; [|apply Rlt_pow_R1; [lra|lia]]. rewrite Rmult_1_l. apply pow_lt; lra. } lra.
      - right. field. lra. }
    assert (Lo : - (ip * ((k + uro) / (1 - k))) <= (1 + d) * iP - ip).
    { assert (uro < 1). { unfold uro. rewrite <- Rinv_1. apply Rinv_lt_contravar; [|apply Rlt_pow_R1; [lra|lia]]. rewrite Rmult_1_l. apply pow_lt; lra. }
      apply Rle_trans with ((1 - uro) * (/ (1 + k) * ip) - ip).
      - replace ((1 - uro) * (/ (1 + k) * ip) - ip) with (- (ip * ((k + uro) / (1 + k)))) by (field; lra). apply Ropp_le_contravar.
        apply Rmult_le_compat_l; [lra|]. apply Rmult_le_compat_l; [lra|]. apply Rinv_le_contravar; lra.
      - assert ((1 - uro) * (/ (1 + k) * ip) <= (1 + d) * iP); [|lra]. apply Rmult_le_compat; try lra. apply Rmult_le_pos; lra. }
    unfold Rdiv in Up, Lo |- *. fold iP. unfold Rabs. destruct (Rcase_abs _); lra.
  Qed.
End Step.

(** ** Runs of a class without memory, in any arithmetic *)
Section Plain.
  Context {T : Type} {NT : Num T}.
  Notation obj := (obj T).
  Notation vec := (list T).

  Lemma plain_run n (o o' : obj) d x y e w (r : T -> vec -> vec) :
    wf n o -> rowsl n x -> is_AP o = false -> is_OCNLMS o = false ->
    (forall s er u, o_ext s = o_ext o -> o_mu s = o_mu o -> learning_rule er u s = (s, Ok (r er u))) ->
    (forall er u, length (r er u) = length u) ->
    run d x o = (o', Ok (y, e, w)) ->
    let W k := nth k (w ++ [o_w o']) [] in
    W 0%nat = o_w o /\ forall k, (k < length x)%nat ->
      length (W k) = n /\ length (W (S k)) = n /\ length (nth k x []) = n /\ nth k y n0 = ndot (W k) (nth k x []) /\
      nth k e n0 = nsub (nth k d n0) (nth k y n0) /\ W (S k) = map2 nadd (W k) (r (nth k e n0) (nth k x [])).
  Proof.
    intros Hwf Hx Hap Hoc Hr Hlr HR W.
    assert (HN : (0 < length x)%nat).
    { destruct x as [|x0 x]; [|cbn; lia]. exfalso. unfold run in HR. destruct d; cbn in HR; discriminate. }
    assert (HI : forall k, (k <= length x)%nat -> o_ext (state_after k d x o) = o_ext o /\ o_mu (state_after k d x o) = o_mu o).
    { induction k as [|k IH]; intros Hk; [destruct d, x; split; reflexivity|].
      destruct (IH ltac:(lia)) as (I1 & I2).
      destruct (run_steps n o o' d x y e w k Hwf Hx HR ltac:(lia)) as (s & s' & Hs & _ & _ & Es & Es' & HA & _ & _ & _ & _ & _ & Hl).
      rewrite <- Es in I1, I2. rewrite <- Es'. unfold adapt in HA. unfold bind at 1, get at 1 in HA.
      assert (Hap' : is_AP s = false) by (unfold is_AP in *; rewrite I1; exact Hap).
      assert (Hoc' : is_OCNLMS s = false) by (unfold is_OCNLMS in *; rewrite I1; exact Hoc).
      rewrite Hap' in HA. unfold adapt_base, bind in HA. rewrite predict_plain in HA by exact Hoc'.
      destruct Hs as (Hws & _). rewrite vdot_ok in HA by congruence. cbv zeta in HA. rewrite (Hr s _ _ I1 I2) in HA.
      rewrite (iadd_w_ok n) in HA by (auto; rewrite Hlr; auto). injection HA as <-. split; [exact I1|exact I2]. }
    split.
    { destruct (run_steps n o o' d x y e w 0 Hwf Hx HR HN) as (s & s' & _ & _ & E0 & _ & _ & _ & Hw & _). unfold W. rewrite <- Hw, (E0 eq_refl). reflexivity. }
    intros k Hk. destruct (run_steps n o o' d x y e w k Hwf Hx HR Hk) as (s & s' & Hs & _ & _ & Es & Es' & HA & Hw & Hw' & _ & Hy & He & Hl).
    destruct (HI k ltac:(lia)) as (I1 & I2). rewrite <- Es in I1, I2.
    assert (Hap' : is_AP s = false) by (unfold is_AP in *; rewrite I1; exact Hap).
    assert (Hoc' : is_OCNLMS s = false) by (unfold is_OCNLMS in *; rewrite I1; exact Hoc).
    unfold pred_out in Hy. rewrite Hap', (predict_plain s _ Hoc') in Hy. destruct Hs as (Hws & _). rewrite vdot_ok in Hy by congruence. cbn [snd] in Hy.
    unfold adapt in HA. unfold bind at 1, get at 1 in HA. rewrite Hap' in HA. unfold adapt_base, bind in HA. rewrite predict_plain in HA by exact Hoc'.
    rewrite vdot_ok in HA by congruence. cbv zeta in HA. rewrite (Hr s _ _ I1 I2) in HA.
    rewrite (iadd_w_ok n) in HA by (auto; rewrite Hlr; auto). injection HA as HA.
    assert (E : W (S k) = map2 nadd (W k) (r (nth k e n0) (nth k x []))).
    { unfold W. rewrite <- Hw', <- Hw, <- HA, He, Hy. reflexivity. }
    assert (L : length (W k) = n) by (unfold W; rewrite <- Hw; exact Hws).
    split; [exact L|]. split; [rewrite E; apply map2_length_eq; [exact L|rewrite Hlr; exact Hl]|].
    split; [exact Hl|]. split; [unfold W; rewrite <- Hw; exact Hy|]. split; [exact He|exact E].
  Qed.
End Plain.

(** ** C79 *)
Section C79.
  Variable solve : list (list float) -> list (list float) -> option (list (list float)).
  Variables (tanh exp : float -> float) (power : float -> float -> float) (sum : list float -> float) (dot : list float -> list float -> float).
  Hypothesis dot_ok : forall u v, length u = length v -> evaluates (combine u v) (dot u v).
  Variable solveR : list rvec -> list rvec -> option (list rvec).
  #[local] Hint Extern 0 (Num float) => exact (FNumD solve tanh exp power sum dot) : typeclass_instances.
  #[local] Hint Extern 0 (Num R) => exact (RNum solveR) : typeclass_instances.

  Section Runs.
    Variables (n : nat) (oF oF' : obj float) (oR oR' : obj R) (d : list float) (x : list (list float)).
    Variables (yF eF : list float) (wF : list (list float)) (yR eR : rvec) (wR : list rvec).
    Hypothesis WFF : wf n oF.
    Hypothesis WFR : wf n oR.
    Hypothesis Hx : rows_of n x.
    Hypothesis HRF : run d x oF = (oF', Ok (yF, eF, wF)).
    Hypothesis HRR : run (map val d) (map (map val) x) oR = (oR', Ok (yR, eR, wR)).
    Hypothesis Hw0 : o_w oR = map val (o_w oF).
    Hypothesis Fy : Forall fin yF.
    Hypothesis Fe : Forall fin eF.
    Hypothesis Fw : Forall (Forall fin) (wF ++ [o_w oF']).

    Let WF k := map val (nth k (wF ++ [o_w oF']) []).
    Let WR k := nth k (wR ++ [o_w oR']) [].
    Let X k := map val (nth k x []).
    Let D k := val (nth k d PrimFloat.zero).
    Let Y k := val (nth k yF PrimFloat.zero).
    Let E k := val (nth k eF PrimFloat.zero).

    (** a class whose rate for the input u is [cF u] in binary64, [cR (map val u)] in exact arithmetic, up to [rho u] *)
    Variables (cF : list float -> float) (cR rho : rvec -> R).
    Hypothesis KF : is_AP oF = false /\ is_OCNLMS oF = false /\ forall s er u, o_ext s = o_ext oF -> o_mu s = o_mu oF ->
      learning_rule er u s = (s, Ok (map (fun a => PrimFloat.mul (PrimFloat.mul (cF u) a) er) u)).
    Hypothesis KR : is_AP oR = false /\ is_OCNLMS oR = false /\ forall s er u, o_ext s = o_ext oR -> o_mu s = o_mu oR ->
      learning_rule er u s = (s, Ok (map (fun a => cR u * a * er) u)).
    Hypothesis Hc : forall k, (k < length x)%nat -> 0 <= cR (X k) /\ cR (X k) * normsq (X k) <= 2 /\
      ((exists er, fin (PrimFloat.mul (PrimFloat.mul (cF (nth k x [])) (nth 0 (nth k x []) PrimFloat.zero)) er)) ->
        Rabs (val (cF (nth k x [])) - cR (X k)) <= rho (X k)).

    Lemma runs_close : forall k, (k <= length x)%nat ->
      dist (WF k) (WR k) <= sumn k (fun j => norm (tab n (step_slack n (cR (X j)) (rho (X j)) (WF j) (WF (S j)) (X j) (D j) (Y j) (E j)))).
    Proof.
      destruct KF as (KF1 & KF2 & KF3). destruct KR as (KR1 & KR2 & KR3).
      destruct (plain_run n oF oF' d x yF eF wF (fun er u => map (fun a => PrimFloat.mul (PrimFloat.mul (cF u) a) er) u) WFF Hx KF1 KF2 KF3 ltac:(intros; apply map_length) HRF) as (F0 & HF).
      assert (HxR : rowsl n (map (map val) x)).
      { unfold rowsl. apply Forall_forall. intros r Hr. apply in_map_iff in Hr as (r' & <- & Hr). rewrite map_length.
        unfold rows_of in Hx. rewrite Forall_forall in Hx. apply Hx; exact Hr. }
      destruct (plain_run n oR oR' (map val d) (map (map val) x) yR eR wR (fun er u => map (fun a => cR u * a * er) u) WFR HxR KR1 KR2 KR3 ltac:(intros; apply map_length) HRR) as (R0 & HR).
      rewrite map_length in HR.
      assert (HN : (0 < length x)%nat).
      { destruct x as [|x0 x']; [|cbn; lia]. exfalso. unfold run in HRF. destruct d; cbn in HRF; discriminate. }
      assert (XR : forall k, (k < length x)%nat -> nth k (map (map val) x) [] = X k) by (intros k Hk; apply (map_nth (map val) x [] k)).
      assert (DR : forall k, nth k (map val d) 0 = D k) by (intros; apply vals_nth).
      assert (LF : forall k, (k <= length x)%nat -> length (WF k) = n).
      { intros [|k] Hk; unfold WF; rewrite map_length; [destruct (HF 0%nat HN) as (H & _)|destruct (HF k ltac:(lia)) as (_ & H & _)]; exact H. }
      assert (LR : forall k, (k <= length x)%nat -> length (WR k) = n).
      { intros [|k] Hk; unfold WR; [destruct (HR 0%nat HN) as (H & _)|destruct (HR k ltac:(lia)) as (_ & H & _)]; exact H. }
      assert (LX : forall k, (k < length x)%nat -> length (X k) = n).
      { intros k Hk. unfold X. rewrite map_length. apply HF, Hk. }
      apply (drift_gen n (length x) WF WR X (fun j => tab n (step_slack n (cR (X j)) (rho (X j)) (WF j) (WF (S j)) (X j) (D j) (Y j) (E j))) D (fun k => cR (X k))).
      - intros k Hk. split; [apply LF|apply LR]; exact Hk.
      - intros k Hk. destruct (Hc k Hk) as (C1 & C2 & _). split; [apply LX; exact Hk|]. split; [apply tab_length|]. split; [exact C1|exact C2].
      - unfold WF, WR. rewrite F0, R0. symmetry. exact Hw0.
      - intros k Hk. destruct (HR k Hk) as (_ & _ & _ & HRy & HRe & HRw). unfold WR at 1. rewrite HRw.
        change (nth k eR n0 = nth k (map val d) 0 - nth k yR 0) in HRe. change (nth k yR 0 = Rdot (WR k) (nth k (map (map val) x) [])) in HRy.
        rewrite XR in * by exact Hk. rewrite HRe, HRy, DR. unfold vadd. change (nth k (wR ++ [o_w oR']) []) with (WR k). apply (f_equal (map2 Rplus (WR k))).
        unfold vsc. apply map_ext. intros a. change (@nsub R _) with Rminus. ring.
      - intros k i Hk Hi. rewrite tab_nth by exact Hi. destruct (HF k Hk) as (HFl & HFl' & HFx & HFy & HFe & HFw).
        change (nth k yF PrimFloat.zero = dot (nth k (wF ++ [o_w oF']) []) (nth k x [])) in HFy.
        change (nth k eF PrimFloat.zero = PrimFloat.sub (nth k d PrimFloat.zero) (nth k yF PrimFloat.zero)) in HFe.
        change (nth (S k) (wF ++ [o_w oF']) [] = map2 PrimFloat.add (nth k (wF ++ [o_w oF']) []) (map (fun a => PrimFloat.mul (PrimFloat.mul (cF (nth k x [])) a) (nth k eF PrimFloat.zero)) (nth k x []))) in HFw.
        destruct (Hc k Hk) as (C1 & C2 & C3).
        assert (GF : forall l j, Forall fin l -> fin (nth j l PrimFloat.zero)).
        { intros l j H. destruct (Nat.lt_ge_cases j (length l)) as [H1|H1]; [|rewrite nth_overflow by exact H1; exact I].
          rewrite Forall_forall in H. apply H, nth_In, H1. }
        assert (Fw' : Forall fin (nth (S k) (wF ++ [o_w oF']) [])).
        { destruct (Nat.lt_ge_cases (S k) (length (wF ++ [o_w oF']))) as [H1|H1]; [|rewrite nth_overflow by exact H1; constructor].
          rewrite Forall_forall in Fw. apply Fw, nth_In, H1. }
        pose proof (GF _ k Fy) as Fyk. pose proof (GF _ k Fe) as Fek.
        unfold E, Y, WF, X, D. rewrite HFw in Fw' |- *. rewrite HFe in Fek, Fw' |- *. rewrite HFy in Fyk, Fek, Fw' |- *.
        apply (float_step dot dot_ok n (cR (map val (nth k x []))) (rho (map val (nth k x [])))
          (nth k (wF ++ [o_w oF']) []) (nth k x []) (cF (nth k x [])) (nth k d PrimFloat.zero)); auto.
        apply C3. exists (PrimFloat.sub (nth k d PrimFloat.zero) (dot (nth k (wF ++ [o_w oF']) []) (nth k x []))).
        assert (n <> 0%nat) as Hn0 by lia.
        assert (F0' : fin (nth 0 (map2 PrimFloat.add (nth k (wF ++ [o_w oF']) []) (map (fun a => PrimFloat.mul (PrimFloat.mul (cF (nth k x [])) a)
          (PrimFloat.sub (nth k d PrimFloat.zero) (dot (nth k (wF ++ [o_w oF']) []) (nth k x [])))) (nth k x []))) PrimFloat.zero)) by (apply GF; exact Fw').
        destruct (nth k (wF ++ [o_w oF']) []) as [|w0 wt]; [cbn in HFl; lia|]. destruct (nth k x []) as [|x0 xt]; [cbn in HFx; lia|].
        cbn [map map2 nth] in F0'. apply add_fin in F0' as (_ & F0'). exact F0'.
    Qed.

    (** the outputs *)
    Lemma outputs_close : forall k, (k < length x)%nat ->
      Rabs (Y k - nth k yR 0) <= dist (WF k) (WR k) * norm (X k) + dot_slack n (sumn n (fun j => Rabs (nth j (WF k) 0 * nth j (X k) 0))).
    Proof.
      intros k Hk. destruct KF as (KF1 & KF2 & KF3). destruct KR as (KR1 & KR2 & KR3).
      destruct (plain_run n oF oF' d x yF eF wF (fun er u => map (fun a => PrimFloat.mul (PrimFloat.mul (cF u) a) er) u) WFF Hx KF1 KF2 KF3 ltac:(intros; apply map_length) HRF) as (F0 & HF).
      assert (HxR : rowsl n (map (map val) x)).
      { unfold rowsl. apply Forall_forall. intros r Hr. apply in_map_iff in Hr as (r' & <- & Hr). rewrite map_length.
        unfold rows_of in Hx. rewrite Forall_forall in Hx. apply Hx; exact Hr. }
      destruct (plain_run n oR oR' (map val d) (map (map val) x) yR eR wR (fun er u => map (fun a => cR u * a * er) u) WFR HxR KR1 KR2 KR3 ltac:(intros; apply map_length) HRR) as (R0 & HR).
      rewrite map_length in HR. destruct (HF k Hk) as (HFl & _ & HFx & HFy & _). destruct (HR k Hk) as (HRl & _ & HRx & HRy & _).
      change (nth k yF PrimFloat.zero = dot (nth k (wF ++ [o_w oF']) []) (nth k x [])) in HFy.
      change (nth k yR 0 = Rdot (WR k) (nth k (map (map val) x) [])) in HRy. assert (XR : nth k (map (map val) x) [] = X k) by apply (map_nth (map val) x [] k). rewrite XR in HRy, HRx.
      assert (Fyk : fin (nth k yF PrimFloat.zero)).
      { destruct (Nat.lt_ge_cases k (length yF)) as [H1|H1]; [|rewrite nth_overflow by exact H1; exact I]. rewrite Forall_forall in Fy. apply Fy, nth_In, H1. }
      unfold Y. rewrite HFy in Fyk |- *. destruct (dot_err dot dot_ok n _ _ HFl HFx Fyk) as (_ & A).
      assert (E1 : sumn n (fun i => val (nth i (nth k (wF ++ [o_w oF']) []) PrimFloat.zero) * val (nth i (nth k x []) PrimFloat.zero)) = Rdot (WF k) (X k)).
      { symmetry. rewrite (Rdot_sumn n) by (unfold WF, X; rewrite map_length; auto). apply sumn_ext; intros j _. unfold WF, X. rewrite !vals_nth. reflexivity. }
      assert (E2 : sumn n (fun i => Rabs (val (nth i (nth k (wF ++ [o_w oF']) []) PrimFloat.zero) * val (nth i (nth k x []) PrimFloat.zero))) =
        sumn n (fun j => Rabs (nth j (WF k) 0 * nth j (X k) 0))).
      { apply sumn_ext; intros j _. unfold WF, X. rewrite !vals_nth. reflexivity. }
      rewrite E1, E2 in A. rewrite HRy.
      match goal with |- Rabs (?v - _) <= _ => replace (v - Rdot (WR k) (X k)) with ((v - Rdot (WF k) (X k)) + (Rdot (WF k) (X k) - Rdot (WR k) (X k))) by ring end.
      eapply Rle_trans; [apply Rabs_triang|]. rewrite (Rplus_comm (dist _ _ * _)). apply Rplus_le_compat; [exact A|].
      assert (LF : length (WF k) = n) by (unfold WF; rewrite map_length; exact HFl). change (length (WR k) = n) in HRl.
      assert (E3 : Rdot (WF k) (X k) - Rdot (WR k) (X k) = Rdot (vsub (WF k) (WR k)) (X k)).
      { rewrite !(Rdot_sumn n) by (auto; apply vsub_length; auto). rewrite <- sumn_minus. apply sumn_ext; intros j _. rewrite nth_vsub by congruence. ring. }
      rewrite E3, dist_norm. set (u := vsub (WF k) (WR k)). pose proof (Cauchy_Schwarz u (X k)) as CS. rewrite <- !norm_sq in CS.
      pose proof (norm_pos u). pose proof (norm_pos (X k)).
      apply Rsqr_incr_0_var; [|apply Rmult_le_pos; assumption]. unfold Rsqr. rewrite <- Rabs_mult, Rabs_pos_eq by apply Rle_0_sqr. lra.
    Qed.
  End Runs.

  (** *** C79.  LMS: an exact filter and a binary64 filter that start at the same weights with the same mu see the same data.
      If 0 <= mu |x_k|^2 <= 2 for every input and nothing overflows, then after k samples the weights differ by at most the sum
      of the rounding slacks of the k steps (the slacks are not amplified), and the outputs by that much times |x_k| plus the
      slack of one inner product. *)
  Theorem C79_LMS : forall n (oF oF' : obj float) (oR oR' : obj R) d x yF eF wF yR eR wR,
    reachable n oF -> reachable n oR -> o_ext oF = XLMS -> o_ext oR = XLMS -> o_mu oR = val (o_mu oF) -> o_w oR = map val (o_w oF) ->
    rows_of n x -> (forall u, In u x -> 0 <= val (o_mu oF) * normsq (map val u) <= 2) -> 0 <= val (o_mu oF) ->
    run d x oF = (oF', Ok (yF, eF, wF)) -> run (map val d) (map (map val) x) oR = (oR', Ok (yR, eR, wR)) ->
    Forall fin yF -> Forall fin eF -> Forall (Forall fin) (wF ++ [o_w oF']) ->
    let WF k := map val (nth k (wF ++ [o_w oF']) []) in let WR k := nth k (wR ++ [o_w oR']) [] in
    let X k := map val (nth k x []) in let D k := val (nth k d PrimFloat.zero) in
    let Y k := val (nth k yF PrimFloat.zero) in let E k := val (nth k eF PrimFloat.zero) in
    let drift k := sumn k (fun j => norm (tab n (step_slack n (val (o_mu oF)) 0 (WF j) (WF (S j)) (X j) (D j) (Y j) (E j)))) in
    (forall k, (k <= length x)%nat -> dist (WF k) (WR k) <= drift k) /\
    (forall k, (k < length x)%nat ->
      Rabs (Y k - nth k yR 0) <= drift k * norm (X k) + dot_slack n (sumn n (fun j => Rabs (nth j (WF k) 0 * nth j (X k) 0)))).
  Proof.
    intros n oF oF' oR oR' d x yF eF wF yR eR wR RF RR EF ER Emu Ew Hx Hrate Hmu HRF HRR Fy Fe Fw WF WR X D Y E drift.
    assert (KF : is_AP oF = false /\ is_OCNLMS oF = false /\ forall s er u, o_ext s = o_ext oF -> o_mu s = o_mu oF ->
      learning_rule er u s = (s, Ok (map (fun a => PrimFloat.mul (PrimFloat.mul ((fun _ => o_mu oF) u) a) er) u))).
    { unfold is_AP, is_OCNLMS. rewrite EF. repeat split. intros s er u Es Em. unfold learning_rule, bind, get. rewrite Es, Em. reflexivity. }
    assert (KR : is_AP oR = false /\ is_OCNLMS oR = false /\ forall s er u, o_ext s = o_ext oR -> o_mu s = o_mu oR ->
      learning_rule er u s = (s, Ok (map (fun a => (fun _ : rvec => val (o_mu oF)) u * a * er) u))).
    { unfold is_AP, is_OCNLMS. rewrite ER. repeat split. intros s er u Es Em. unfold learning_rule, bind, get. rewrite Es, Em, Emu. reflexivity. }
    assert (HC : forall k, (k <= length x)%nat -> dist (WF k) (WR k) <= drift k).
    { apply (runs_close n oF oF' oR oR' d x yF eF wF yR eR wR (reachable_wf _ _ RF) (reachable_wf _ _ RR) Hx HRF HRR Ew Fy Fe Fw
        (fun _ => o_mu oF) (fun _ => val (o_mu oF)) (fun _ => 0) KF KR).
      intros k Hk. pose proof (Hrate (nth k x []) (nth_In _ _ Hk)) as (H1 & H2). split; [exact Hmu|]. split; [exact H2|].
      intros _. rewrite Rminus_diag_eq, Rabs_R0 by reflexivity. lra. }
    split; [exact HC|]. intros k Hk.
    eapply Rle_trans; [apply (outputs_close n oF oF' oR oR' d x yF eF wF yR eR wR (reachable_wf _ _ RF) (reachable_wf _ _ RR) Hx HRF HRR Fy
      (fun _ => o_mu oF) (fun _ => val (o_mu oF)) KF KR k Hk)|].
    apply Rplus_le_compat_r. apply Rmult_le_compat_r; [apply norm_pos|]. apply HC. lia.
  Qed.

  (** NLMS: the same for 0 <= mu <= 2 and any eps > 0, whatever the inputs *)
  Theorem C79_NLMS : forall n (oF oF' : obj float) (oR oR' : obj R) eps d x yF eF wF yR eR wR,
    reachable n oF -> reachable n oR -> o_ext oF = XNLMS eps -> o_ext oR = XNLMS (val eps) -> o_mu oR = val (o_mu oF) -> o_w oR = map val (o_w oF) ->
    rows_of n x -> 0 <= val (o_mu oF) <= 2 -> 0 < val eps ->
    (forall u, In u x -> fin (PrimFloat.add eps (dot u u)) /\ kappa n (val eps) (map val u) < 1) ->
    run d x oF = (oF', Ok (yF, eF, wF)) -> run (map val d) (map (map val) x) oR = (oR', Ok (yR, eR, wR)) ->
    Forall fin yF -> Forall fin eF -> Forall (Forall fin) (wF ++ [o_w oF']) ->
    let WF k := map val (nth k (wF ++ [o_w oF']) []) in let WR k := nth k (wR ++ [o_w oR']) [] in
    let X k := map val (nth k x []) in let D k := val (nth k d PrimFloat.zero) in
    let Y k := val (nth k yF PrimFloat.zero) in let E k := val (nth k eF PrimFloat.zero) in
    let rate k := val (o_mu oF) / (val eps + normsq (X k)) in
    let drift k := sumn k (fun j => norm (tab n (step_slack n (rate j) (rate_slack n (val (o_mu oF)) (val eps) (X j)) (WF j) (WF (S j)) (X j) (D j) (Y j) (E j)))) in
    (forall k, (k <= length x)%nat -> dist (WF k) (WR k) <= drift k) /\
    (forall k, (k < length x)%nat ->
      Rabs (Y k - nth k yR 0) <= drift k * norm (X k) + dot_slack n (sumn n (fun j => Rabs (nth j (WF k) 0 * nth j (X k) 0)))).
  Proof.
    intros n oF oF' oR oR' eps d x yF eF wF yR eR wR RF RR EF ER Emu Ew Hx Hmu Heps Hrow HRF HRR Fy Fe Fw WF WR X D Y E rate drift.
    set (cF := fun u : list float => PrimFloat.div (o_mu oF) (PrimFloat.add eps (dot u u))).
    set (cR := fun u : rvec => val (o_mu oF) / (val eps + normsq u)).
    assert (KF : is_AP oF = false /\ is_OCNLMS oF = false /\ forall s er u, o_ext s = o_ext oF -> o_mu s = o_mu oF ->
      learning_rule er u s = (s, Ok (map (fun a => PrimFloat.mul (PrimFloat.mul (cF u) a) er) u))).
    { unfold is_AP, is_OCNLMS. rewrite EF. repeat split. intros s er u Es Em. unfold learning_rule, bind, get. rewrite Es, Em. reflexivity. }
    assert (KR : is_AP oR = false /\ is_OCNLMS oR = false /\ forall s er u, o_ext s = o_ext oR -> o_mu s = o_mu oR ->
      learning_rule er u s = (s, Ok (map (fun a => cR u * a * er) u))).
    { unfold is_AP, is_OCNLMS. rewrite ER. repeat split. intros s er u Es Em. unfold learning_rule, bind, get. rewrite Es, Em, Emu. reflexivity. }
    assert (HC : forall k, (k <= length x)%nat -> dist (WF k) (WR k) <= drift k).
    { apply (runs_close n oF oF' oR oR' d x yF eF wF yR eR wR (reachable_wf _ _ RF) (reachable_wf _ _ RR) Hx HRF HRR Ew Fy Fe Fw
        cF cR (rate_slack n (val (o_mu oF)) (val eps)) KF KR).
      intros k Hk. pose proof (Hrow (nth k x []) (nth_In _ _ Hk)) as (H1 & H2). fold (X k) in *.
      pose proof (normsq_nonneg (X k)) as HN. set (P := val eps + normsq (X k)). assert (HP : 0 < P) by (unfold P; lra).
      assert (HPi : 0 < / P) by (apply Rinv_0_lt_compat; exact HP).
      split; [unfold cR; fold P; apply Rmult_le_pos; lra|]. split.
      - unfold cR. fold P. unfold Rdiv. rewrite Rmult_assoc.
        assert (/ P * normsq (X k) <= 1).
        { apply Rmult_le_reg_l with P; [exact HP|]. rewrite <- Rmult_assoc, Rinv_r by lra. unfold P. lra. }
        assert (0 <= / P * normsq (X k)) by (apply Rmult_le_pos; lra).
        apply Rle_trans with (2 * 1); [|lra]. apply Rmult_le_compat; lra.
      - intros (er & F). destruct (two_mul _ _ _ F) as (Fc & _).
        unfold rows_of in Hx. rewrite Forall_forall in Hx.
        apply (nlms_rate dot dot_ok n (o_mu oF) eps (nth k x [])); auto; [apply Hx, nth_In, Hk|lra]. }
    split; [exact HC|]. intros k Hk.
    eapply Rle_trans; [apply (outputs_close n oF oF' oR oR' d x yF eF wF yR eR wR (reachable_wf _ _ RF) (reachable_wf _ _ RR) Hx HRF HRR Fy
      cF cR KF KR k Hk)|].
    apply Rplus_le_compat_r. apply Rmult_le_compat_r; [apply norm_pos|]. apply HC. lia.
  Qed.
End C79.

(** the slacks in round numbers: up to 2^50 taps *)
Lemma pow_small n : (Z.of_nat n <= 2 ^ 50)%Z -> 1 <= (1 + uro) ^ n <= 1 + 2 * (INR n * uro).
Proof.
  intros H. pose proof uro_pos as Hu. split; [apply pow_ge1|].
  assert (Hn : INR n * uro <= / 8).
  { unfold uro. rewrite INR_IZR_INZ. apply Rle_trans with (2 ^ 50 * / 2 ^ 53).
    - apply Rmult_le_compat_r; [left; exact Hu|]. replace (2 ^ 50) with (IZR (2 ^ 50)) by (symmetry; exact (pow_IZR 2 50)). apply IZR_le, H.
    - right. field. }
  assert (G : (1 + uro) ^ n * (1 - INR n * uro) <= 1).
  { clear H Hn. induction n as [|n IH]; [cbn; lra|]. rewrite S_INR. cbn [pow].
    pose proof (pow_ge1 n) as P1. pose proof (pos_INR n) as P2.
    replace ((1 + uro) * (1 + uro) ^ n * (1 - (INR n + 1) * uro)) with ((1 + uro) ^ n * (1 - INR n * uro) - (1 + uro) ^ n * (INR n + 1) * uro * uro) by ring.
    assert (0 <= (1 + uro) ^ n * (INR n + 1) * uro * uro) by (repeat apply Rmult_le_pos; lra). lra. }
  set (t := INR n * uro) in *. assert (0 <= t) by (apply Rmult_le_pos; [apply pos_INR|lra]). set (p := (1 + uro) ^ n) in *.
  assert (p * (1 - t) <= (1 + 2 * t) * (1 - t)) by nra. nra.
Qed.
Lemma dot_slack_small n a : (Z.of_nat n <= 2 ^ 50)%Z -> 0 <= a -> dot_slack n a <= 2 * INR n * (uro * a + eta).
Proof.
  intros H Ha. destruct (pow_small n H) as (P1 & P2). unfold dot_slack. pose proof eta_pos. pose proof uro_pos. pose proof (pos_INR n) as Hn.
  assert (Hn8 : INR n * uro <= / 8).
  { unfold uro. rewrite INR_IZR_INZ. apply Rle_trans with (2 ^ 50 * / 2 ^ 53).
    - apply Rmult_le_compat_r; [left; apply uro_pos|]. replace (2 ^ 50) with (IZR (2 ^ 50)) by (symmetry; exact (pow_IZR 2 50)). apply IZR_le, H.
    - right. field. }
  assert (((1 + uro) ^ n - 1) * a <= 2 * (INR n * uro) * a) by (apply Rmult_le_compat_r; lra).
  assert (INR n * (1 + uro) ^ n * eta <= INR n * 2 * eta) by (apply Rmult_le_compat_r; [lra|]; apply Rmult_le_compat_l; lra).
  lra.
Qed.
(** the condition kappa < 1 of C79_NLMS holds for up to 2^50 taps and any eps of at least 2^-1000 *)
Lemma kappa_small n eps x : (Z.of_nat n <= 2 ^ 50)%Z -> / 2 ^ 1000 <= eps -> kappa n eps x < 1.
Proof.
  intros H He. unfold kappa. pose proof uro_pos as Hu. pose proof eta_pos as Ht. pose proof (normsq_nonneg x) as HN. set (Q := normsq x) in *.
  assert (He0 : 0 < eps). { eapply Rlt_le_trans; [|exact He]. apply Rinv_0_lt_compat, pow_lt. lra. }
  assert (Hn : INR n <= 2 ^ 50).
  { rewrite INR_IZR_INZ. replace (2 ^ 50) with (IZR (2 ^ 50)) by (symmetry; exact (pow_IZR 2 50)). apply IZR_le, H. }
  pose proof (pos_INR n) as Hn0. pose proof (dot_slack_small n Q H HN) as HD.
  assert (U : uro = / 2 ^ 53) by reflexivity.
  assert (U1 : uro <= / 8). { rewrite U. apply Rinv_le_contravar; [lra|]. apply Rle_trans with (2 ^ 3); [lra|]. apply Rle_pow; [lra|lia]. }
  assert (U2 : 2 ^ 50 * uro = / 8) by (unfold uro; field).
  assert (T1 : 2 ^ 50 * eta <= / 16 * eps).
  { eapply Rle_trans; [|apply Rmult_le_compat_l; [lra|exact He]]. unfold eta. replace (/ 2 ^ 1075) with (/ 2 ^ 54 * (/ 2 ^ 21 * / 2 ^ 1000)).
    2:{ rewrite <- !Rinv_mult, <- !pow_add. reflexivity. }
    rewrite <- !Rmult_assoc. apply Rmult_le_compat_r; [left; apply Rinv_0_lt_compat, pow_lt; lra|].
    replace (2 ^ 50 * / 2 ^ 54 * / 2 ^ 21) with (/ 16 * / 2 ^ 21) by (field). rewrite <- (Rmult_1_r (/ 16)) at 2. apply Rmult_le_compat_l; [lra|].
    rewrite <- Rinv_1. apply Rinv_le_contravar; [lra|]. apply pow_R1_Rle. lra. }
  assert (D1 : dot_slack n Q <= / 4 * (eps + Q)).
  { assert (INR n * uro * Q <= / 8 * Q). { apply Rmult_le_compat_r; [exact HN|]. rewrite <- U2. apply Rmult_le_compat_r; lra. }
    assert (INR n * eta <= 2 ^ 50 * eta) by (apply Rmult_le_compat_r; lra). lra. }
  assert (HP : 0 < eps + Q) by lra.
  assert ((1 + uro) * dot_slack n Q / (eps + Q) <= (1 + uro) * / 4).
  { apply Rmult_le_reg_r with (eps + Q); [exact HP|]. unfold Rdiv. rewrite Rmult_assoc, Rinv_l, Rmult_1_r by lra.
    rewrite (Rmult_assoc (1 + uro)). apply Rmult_le_compat_l; lra. }
  lra.
Qed.

(** a concrete case: NLMS with mu = eps = 0.1 in binary64 (PropsRound.v) and in exact arithmetic *)
Example C79_hypotheses : forall solveR,
  let NR := RNum solveR in
  let oR := mkObj [0; 0] 2 (val tenth) None (XNLMS (val tenth)) in
  @reachable _ round_num 2 round_filter /\ @reachable _ NR 2 oR /\ o_w oR = map val (o_w round_filter) /\ o_mu oR = val (o_mu round_filter) /\
  rows_of 2 round_x /\ 0 <= val tenth <= 2 /\ 0 < val tenth /\
  (forall u, In u round_x -> fin (PrimFloat.add tenth (plain_dot u u)) /\ kappa 2 (val tenth) (map val u) < 1) /\
  (exists oF' yF eF wF, @run _ round_num round_d round_x round_filter = (oF', Ok (yF, eF, wF)) /\
    Forall fin yF /\ Forall fin eF /\ Forall (Forall fin) (wF ++ [o_w oF'])) /\
  (exists oR' yR eR wR, @run _ NR (map val round_d) (map (map val) round_x) oR = (oR', Ok (yR, eR, wR))) /\
  (* and for LMS with the same mu *)
  (forall u, In u round_x -> 0 <= val tenth * normsq (map val u) <= 2).
Proof.
  intros solveR NR oR.
  assert (VT : val tenth = Q2R (valQ tenth)) by apply val_Q.
  assert (T : / 11 <= val tenth <= / 9).
  { rewrite VT. split; [replace (/ 11) with (Q2R (1 # 11)) by (unfold Q2R; cbn; lra)|replace (/ 9) with (Q2R (1 # 9)) by (unfold Q2R; cbn; lra)];
      apply Qle_Rle; vm_compute; discriminate. }
  assert (HR : @reachable _ NR 2 oR).
  { apply (fresh2_reachable solveR (val tenth) (Some (val tenth)) None None KNLMS). reflexivity. }
  assert (V1 : val PrimFloat.one = 1). { unfold val. change (Prim2SF PrimFloat.one) with (S754_finite false 4503599627370496 (-52)). cbn [powerRZ]. change (Pos.to_nat 52) with 52%nat. field. }
  assert (V2 : val PrimFloat.two = 2). { unfold val. change (Prim2SF PrimFloat.two) with (S754_finite false 4503599627370496 (-51)). cbn [powerRZ]. change (Pos.to_nat 51) with 51%nat. field. }
  split; [exact round_reachable|]. split; [exact HR|]. split; [reflexivity|]. split; [reflexivity|].
  split; [repeat constructor|]. split; [lra|]. split; [lra|]. split; [|split; [|split]].
  - intros u Hu. split.
    + apply finb_ok. destruct Hu as [<-|[<-|[<-|[]]]]; vm_compute; reflexivity.
    + apply kappa_small; [vm_compute; discriminate|]. apply Rle_trans with (/ 11); [|lra]. apply Rinv_le_contravar; [lra|].
      apply Rle_trans with (2 ^ 4); [lra|]. apply Rle_pow; [lra|lia].
  - destruct C78_hypotheses as (_ & _ & _ & _ & o' & y & e & w & E & Fy & Fe & Fw & _). exists o', y, e, w. auto.
  - apply (run_exists solveR 2 oR); [exact HR|repeat constructor|reflexivity|discriminate|]. intros ex H. exact H.
  - intros u Hu. set (t := val tenth) in *. assert (T2 : 0 <= t * t <= 1 / 81) by (split; [apply Rle_0_sqr|nra]).
    assert (RD : forall a b, normsq [a; b] = a * a + b * b) by (intros; unfold normsq; cbn; ring).
    destruct Hu as [<-|[<-|[<-|[]]]]; cbn [map]; rewrite RD, ?V1, ?V2; fold t; clearbody t; clear - T T2; split; nra.
Qed.
