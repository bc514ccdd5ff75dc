(** C93: how far the error measures computed in binary64 are from the true ones. *)
From Coq Require Import ZArith QArith Qreals Reals Lra Psatz Permutation Uint63 FloatOps FloatAxioms SpecFloat.
From Coq Require PrimFloat.
From Flocq Require Import Core BinarySingleNaN.
From Flocq Require IEEE754.PrimFloat.
From Verif Require Import Py Num NumF Numpy Misc PropsMisc RMat RVec FloatErr PropsRound PropsRoundRun PropsWindup PropsNoOverflow.
Open Scope R_scope.
#[local] Existing Instance Flocq.IEEE754.PrimFloat.Hprec.
#[local] Existing Instance Flocq.IEEE754.PrimFloat.Hmax.
#[local] Notation bin := Flocq.IEEE754.PrimFloat.Prim2B.
#[local] Notation sqrt := R_sqrt.sqrt.

(** ** Specification *)
(** a float obtained by adding up the entries of l in any order and bracketing (np.sum adds pairwise in blocks) *)
Inductive sums : list float -> float -> Prop :=
| sum_zero : sums [] PrimFloat.zero
| sum_one a : sums [a] a
| sum_add l1 l2 r1 r2 : sums l1 r1 -> sums l2 r2 -> sums (l1 ++ l2) (PrimFloat.add r1 r2)
| sum_perm l l' r : Permutation l l' -> sums l r -> sums l' r.
(** finite numbers of sane size *)
Definition sane (v : list float) : Prop := Forall (fun a => fin a /\ Rabs (val a) <= 2 ^ 400) v.

(** ** Single operations *)
Lemma mul_1_r a : PrimFloat.mul a PrimFloat.one = a.
Proof.
  apply Flocq.IEEE754.PrimFloat.Prim2B_inj. rewrite Flocq.IEEE754.PrimFloat.mul_equiv.
  pose proof (Bmult_correct FloatOps.prec FloatOps.emax Flocq.IEEE754.PrimFloat.Hprec Flocq.IEEE754.PrimFloat.Hmax mode_NE (bin a) (bin PrimFloat.one)) as C.
  rewrite <- (val_B PrimFloat.one), one_val, Rmult_1_r in C.
  rewrite round_generic in C; [|apply valid_rnd_round_mode|apply generic_format_B2R].
  rewrite Rlt_bool_true in C by apply abs_B2R_lt_emax. destruct C as (C1 & C2 & C3).
  assert (F1 : is_finite (bin PrimFloat.one) = true) by (apply fin_B; exact I).
  assert (S1 : Bsign (bin PrimFloat.one) = false) by (vm_compute; reflexivity).
  rewrite F1, S1 in *. destruct (is_finite (bin a)) eqn:E.
  - apply B2R_Bsign_inj; [exact C2|exact E|exact C1|]. rewrite C3; [apply Bool.xorb_false_r|].
    destruct (Bmult mode_NE (bin a) (bin PrimFloat.one)); try discriminate; reflexivity.
  - destruct (bin PrimFloat.one) as [s|s| |s m e Hm] eqn:E1; try discriminate F1.
    + exfalso. assert (V : val PrimFloat.one = 0) by (rewrite val_B, E1; reflexivity). rewrite one_val in V. lra.
    + cbn in S1. subst s. destruct (bin a) as [s'|s'| |s' m' e' Hm']; try discriminate E; [|reflexivity]. cbn. rewrite Bool.xorb_false_r. reflexivity.
Qed.
Lemma sums_evaluates l r : sums l r -> evaluates (map (fun a => (a, PrimFloat.one)) l) r.
Proof.
  induction 1 as [|a|l1 l2 r1 r2 _ IH1 _ IH2|l l' r HP _ IH].
  - apply ev_zero.
  - cbn. rewrite <- (mul_1_r a) at 2. apply ev_mul.
  - rewrite map_app. apply ev_add; assumption.
  - eapply ev_perm; [apply Permutation_map, HP|exact IH].
Qed.
Lemma abs_ok a : fin (PrimFloat.abs a) <-> fin a.
Proof. unfold fin. rewrite abs_spec. destruct (Prim2SF a); tauto. Qed.
Lemma abs_val a : val (PrimFloat.abs a) = Rabs (val a).
Proof.
  rewrite !val_B, Flocq.IEEE754.PrimFloat.abs_equiv. apply B2R_Babs.
Qed.
Lemma fin_zero_zr a : fin a -> val a = 0 -> zr a.
Proof.
  unfold fin, val, zr. destruct (Prim2SF a) as [s|s| |s m e]; auto. intros _ H. exfalso.
  assert (P : 0 < powerRZ 2 e) by (apply powerRZ_lt; lra). assert (M : 0 < IZR (Zpos m)) by (apply IZR_lt; reflexivity).
  destruct s; nra.
Qed.
Lemma sub_self a : fin a -> zr (PrimFloat.sub a a).
Proof.
  intros F. pose proof F as F'. rewrite fin_B in F'.
  pose proof (Bminus_correct FloatOps.prec FloatOps.emax Flocq.IEEE754.PrimFloat.Hprec Flocq.IEEE754.PrimFloat.Hmax mode_NE _ _ F' F') as C.
  replace (B2R (bin a) - B2R (bin a)) with 0 in C by ring. rewrite round_0 in C by apply valid_rnd_round_mode. rewrite Rlt_bool_true in C by (rewrite Rabs_R0; apply bpow_gt_0).
  destruct C as (C1 & C2 & _). apply fin_zero_zr.
  - rewrite fin_B, Flocq.IEEE754.PrimFloat.sub_equiv. exact C2.
  - rewrite val_B, Flocq.IEEE754.PrimFloat.sub_equiv. exact C1.
Qed.
Lemma count_val n : (Z.of_nat n < 2 ^ 53)%Z -> fin (f_of_Z (Z.of_nat n)) /\ val (f_of_Z (Z.of_nat n)) = INR n.
Proof.
  intros H. destruct n as [|n]; [split; [exact I|reflexivity]|]. set (z := Z.of_nat (S n)) in *. assert (Hz : (0 < z)%Z) by lia.
  assert (E : f_of_Z z = PrimFloat.of_uint63 (Uint63.of_Z z)) by (unfold f_of_Z; destruct z; [lia|reflexivity|lia]). rewrite E.
  assert (T : Uint63.to_Z (Uint63.of_Z z) = z).
  { rewrite Uint63.of_Z_spec. apply Z.mod_small. split; [lia|]. apply Z.lt_trans with (2 ^ 53)%Z; [exact H|reflexivity]. }
  rewrite fin_B, val_B, Flocq.IEEE754.PrimFloat.of_int63_equiv, T.
  pose proof (binary_normalize_correct FloatOps.prec FloatOps.emax Flocq.IEEE754.PrimFloat.Hprec Flocq.IEEE754.PrimFloat.Hmax mode_NE z 0 false) as C. cbv zeta in C.
  assert (V : F2R (Float radix2 z 0) = IZR z) by (unfold F2R; cbn; ring). rewrite V in C.
  rewrite round_generic in C.
  - rewrite Rlt_bool_true in C. { destruct C as (C1 & C2 & _). split; [exact C2|]. rewrite C1. unfold z. symmetry. apply INR_IZR_INZ. }
    rewrite Rabs_pos_eq by (apply IZR_le; lia). apply Rlt_trans with (IZR (2 ^ 53)); [apply IZR_lt; exact H|].
    change (IZR (2 ^ 53)) with (bpow radix2 53). apply bpow_lt. reflexivity.
  - apply valid_rnd_round_mode.
  - apply generic_format_FLT. exists (Float radix2 z 0); [symmetry; exact V| |].
    + cbn [Fnum]. rewrite Z.abs_eq by lia. exact H.
    + cbn [Fexp]. vm_compute. discriminate.
Qed.
Lemma rnd_nonneg z : 0 <= z -> 0 <= rnd z.
Proof. intros H. unfold rnd. rewrite <- (round_0 radix2 (SpecFloat.fexp FloatOps.prec FloatOps.emax) (round_mode mode_NE)). apply round_le; [apply FLT_exp_valid; reflexivity|apply valid_rnd_round_mode|exact H]. Qed.
(** inner products of numbers with equal signs are not negative *)
Lemma ev_nonneg l r : evaluates l r -> Forall (fun p => 0 <= val (fst p) * val (snd p)) l -> fin r -> 0 <= val r.
Proof.
  induction 1 as [|a b|l1 l2 r1 r2 H1 IH1 H2 IH2|a b l r s H IH Hf|l l' r HP H IH]; intros HF Fr.
  - cbn. unfold val. cbn. lra.
  - destruct (mul_round a b Fr) as (_ & _ & ->). apply rnd_nonneg. exact (Forall_inv HF).
  - destruct (add_fin _ _ Fr) as (F1 & F2). rewrite (add_round _ _ Fr). apply Forall_app in HF as (A & B). apply rnd_nonneg. specialize (IH1 A F1). specialize (IH2 B F2). lra.
  - pose proof (fma_err a b r s Hf Fr) as (Fa & Fb & Frr & _). specialize (IH (Forall_inv_tail HF) Frr). pose proof (Forall_inv HF) as P. cbn [fst snd] in P.
    unfold fused in Hf. rewrite val_B, Hf. rewrite fin_B in Fa, Fb, Frr, Fr.
    pose proof (Bfma_correct FloatOps.prec FloatOps.emax Flocq.IEEE754.PrimFloat.Hprec Flocq.IEEE754.PrimFloat.Hmax mode_NE _ _ _ Fa Fb Frr) as C. cbv zeta in C. rewrite <- !val_B in C.
    destruct (Rlt_bool _ _) in C.
    + destruct C as (-> & _). apply (rnd_nonneg (val a * val b + val r)). lra.
    + exfalso. apply overflow_not_fin in C. rewrite <- Hf, Fr in C. discriminate.
  - apply IH; [|exact Fr]. rewrite Forall_forall in *. intros p Hp. apply HF. eapply Permutation_in; eauto.
Qed.
Lemma sqrt_ok a : fin a -> 0 <= val a -> fin (PrimFloat.sqrt a) /\ val (PrimFloat.sqrt a) = rnd (sqrt (val a)).
Proof.
  intros F H. pose proof (Bsqrt_correct FloatOps.prec FloatOps.emax Flocq.IEEE754.PrimFloat.Hprec Flocq.IEEE754.PrimFloat.Hmax mode_NE (bin a)) as (C1 & C2 & _).
  rewrite fin_B, !val_B, Flocq.IEEE754.PrimFloat.sqrt_equiv. split; [|exact C1]. rewrite C2. apply fin_B in F. rewrite val_B in H.
  destruct (bin a) as [s|s| |s m e Hm]; try discriminate; [reflexivity|]. destruct s; [|reflexivity]. exfalso.
  cbn in H. assert (F2R (Float radix2 (Zneg m) e) < 0) by (apply F2R_lt_0; reflexivity). unfold F2R in *. cbn in *. lra.
Qed.
Lemma zr_sqrt a : zr a -> zr (PrimFloat.sqrt a).
Proof. unfold zr. rewrite sqrt_spec. destruct (Prim2SF a); tauto. Qed.

(** ** From the sum to the mean *)
Lemma mean_err n (D : float) S S0 : (0 < n)%nat -> (Z.of_nat n <= 2 ^ 40)%Z -> fin D -> 0 <= S0 <= 2 ^ 900 -> 0 <= S ->
  Rabs (S - S0) <= 3 * uro * S0 -> Rabs (val D - S) <= dot_slack n S ->
  let r := PrimFloat.div D (f_of_Z (Z.of_nat n)) in
  fin r /\ Rabs (val r - S0 / INR n) <= 2 * (INR n + 3) * uro * (S0 / INR n) + 4 * eta /\ (0 <= val D -> 0 <= val r).
Proof.
  intros Hn Hn40 FD HS0 HS H1 H2 r. assert (Hn50 : (Z.of_nat n <= 2 ^ 50)%Z) by (apply Z.le_trans with (2 ^ 40)%Z; [exact Hn40|discriminate]).
  destruct (count_val n) as (FN & VN). { apply Z.le_lt_trans with (2 ^ 40)%Z; [exact Hn40|reflexivity]. }
  pose proof (dot_slack_small n S Hn50 HS) as DS. pose proof uro_pos as Hu. pose proof eta_pos as He.
  assert (N1 : 1 <= INR n) by (replace 1 with (INR 1) by reflexivity; apply le_INR; lia).
  assert (NU : INR n * uro <= / 2 ^ 13).
  { unfold uro. rewrite INR_IZR_INZ. apply Rle_trans with (2 ^ 40 * / 2 ^ 53).
    - apply Rmult_le_compat_r; [left; apply Rinv_0_lt_compat, pow_lt; lra|]. replace (2 ^ 40) with (IZR (2 ^ 40)) by (symmetry; exact (pow_IZR 2 40)). apply IZR_le. exact Hn40.
    - right. exact (pw 40 53 ltac:(lia)). }
  assert (U : uro <= / 2 ^ 13). { apply Rle_trans with (INR n * uro); [|exact NU]. rewrite <- (Rmult_1_l uro) at 1. apply Rmult_le_compat_r; lra. }
  set (M := S0 / INR n). set (N := INR n) in *. assert (EM : S0 = N * M) by (unfold M; field; lra).
  assert (HM : 0 <= M) by (unfold M; apply Rmult_le_pos; [lra|left; apply Rinv_0_lt_compat; lra]).
  set (Q := val D / N). assert (EQ : val D = N * Q) by (unfold Q; field; lra).
  assert (P13 : / 2 ^ 13 <= / 100) by (simpl; lra).
  (* the quotient before rounding *)
  assert (SB : S <= S0 + 3 * uro * S0). { pose proof (Rle_abs (S - S0)). lra. }
  assert (DD : Rabs (val D - S0) <= 3 * uro * S0 + 2 * N * (uro * S + eta)).
  { replace (val D - S0) with ((val D - S) + (S - S0)) by ring. eapply Rle_trans; [apply Rabs_triang|]. lra. }
  assert (US : uro * S <= uro * S0 + 3 * uro * (uro * S0)). { apply Rmult_le_compat_l with (r := uro) in SB; lra. }
  assert (QB : Rabs (Q - M) <= (2 * N + 4) * uro * M + 2 * eta).
  { apply Rmult_le_reg_l with N; [lra|]. replace (N * Rabs (Q - M)) with (Rabs (val D - S0)). 2: { rewrite EQ, EM. replace (N * Q - N * M) with (N * (Q - M)) by ring. rewrite Rabs_mult, (Rabs_pos_eq N) by lra. reflexivity. }
    eapply Rle_trans; [exact DD|]. assert (K : 2 * N * (uro * S) <= 2 * N * (uro * S0) + uro * S0).
    { apply Rle_trans with (2 * N * (uro * S0 + 3 * uro * (uro * S0))); [apply Rmult_le_compat_l; lra|].
      assert (6 * (N * uro) * (uro * S0) <= 1 * (uro * S0)) by (apply Rmult_le_compat_r; [apply Rmult_le_pos; lra|lra]). lra. }
    rewrite EM in *. lra. }
  assert (Q2 : Rabs Q <= 2 * M + 2 * eta).
  { replace Q with ((Q - M) + M) by ring. eapply Rle_trans; [apply Rabs_triang|]. rewrite (Rabs_pos_eq M HM).
    assert ((2 * N + 4) * uro * M <= 1 * M) by (apply Rmult_le_compat_r; lra). lra. }
  assert (MB : M <= 2 ^ 900). { apply Rle_trans with S0; [|lra]. rewrite EM. rewrite <- (Rmult_1_l M) at 1. apply Rmult_le_compat_r; lra. }
  assert (E1 : eta <= 1). { eapply Rle_trans; [apply eta_small|]. rewrite <- Rinv_1. apply Rinv_le_contravar; [lra|apply pow_R1_Rle; lra]. }
  assert (P900 : 1 <= 2 ^ 900) by (apply pow_R1_Rle; lra).
  assert (F : fin r).
  { apply div_ok; [exact FD|exact FN|rewrite VN; fold N; lra|]. rewrite VN. fold N. fold Q. unfold cap. replace (2 ^ 1000) with (2 ^ 100 * 2 ^ 900) by (rewrite <- pow_add; reflexivity).
    assert (8 <= 2 ^ 100) by (replace 8 with (2 ^ 3) by lra; apply Rle_pow; [lra|leb]). nra. }
  split; [exact F|]. split.
  - unfold r. destruct (div_err D (f_of_Z (Z.of_nat n)) F FN) as (d & h & Hd & Hh & V); [rewrite VN; fold N; lra|].
    rewrite V, VN. fold N. fold Q. replace (Q * (1 + d) + h - M) with ((Q - M) + (d * Q + h)) by ring.
    eapply Rle_trans; [apply Rabs_triang|]. assert (Rabs (d * Q + h) <= uro * (2 * M + 2 * eta) + eta).
    { eapply Rle_trans; [apply Rabs_triang|]. rewrite Rabs_mult. apply Rplus_le_compat; [|exact Hh]. apply Rmult_le_compat; try apply Rabs_pos; assumption. }
    assert (uro * (2 * eta) <= / 100 * (2 * eta)) by (apply Rmult_le_compat_r; lra). lra.
  - intros HD. unfold r. destruct (div_round D (f_of_Z (Z.of_nat n)) F FN) as (_ & ->); [rewrite VN; fold N; lra|]. apply rnd_nonneg. rewrite VN. fold N.
    apply Rmult_le_pos; [exact HD|left; apply Rinv_0_lt_compat; lra].
Qed.
Lemma sqrt_close q M al h : 0 <= q -> 0 <= M -> 0 <= al <= 1 -> 0 <= h -> Rabs (q - M) <= al * M + h ->
  Rabs (sqrt q - sqrt M) <= al * sqrt M + sqrt h.
Proof.
  intros Hq HM Ha Hh H. pose proof (sqrt_pos q) as P1. pose proof (sqrt_pos M) as P2. pose proof (sqrt_pos h) as P3.
  pose proof (sqrt_sqrt q Hq) as E1. pose proof (sqrt_sqrt M HM) as E2. pose proof (sqrt_sqrt h Hh) as E3.
  set (a := sqrt q) in *. set (b := sqrt M) in *. set (c := sqrt h) in *.
  assert (HL : - (al * M + h) <= q - M <= al * M + h) by (revert H; unfold Rabs; destruct (Rcase_abs (q - M)); lra).
  apply Rabs_le. split.
  - (* (1 - al) b <= a + c *)
    assert ((1 - al) * b <= a + c); [|lra]. apply Rsqr_incr_0; [|apply Rmult_le_pos; lra|lra]. unfold Rsqr.
    assert ((1 - al) * b * ((1 - al) * b) <= (1 - al) * M). { replace ((1 - al) * b * ((1 - al) * b)) with ((1 - al) * ((1 - al) * M)) by (rewrite <- E2; ring). apply Rmult_le_compat_l; [lra|]. nra. }
    assert (0 <= a * c) by (apply Rmult_le_pos; assumption). nra.
  - assert (a <= (1 + al) * b + c); [|lra]. apply Rsqr_incr_0; [|exact P1|]. 2: { assert (0 <= (1 + al) * b) by (apply Rmult_le_pos; lra). lra. }
    unfold Rsqr. assert (0 <= (1 + al) * b * c) by (apply Rmult_le_pos; [apply Rmult_le_pos|]; lra).
    assert ((1 + al) * M <= (1 + al) * b * ((1 + al) * b)). { replace ((1 + al) * b * ((1 + al) * b)) with ((1 + al) * ((1 + al) * M)) by (rewrite <- E2; ring). apply Rmult_le_compat_l; [lra|]. nra. }
    nra.
Qed.

Section C93.
  Variable solve : list (list float) -> list (list float) -> option (list (list float)).
  Variables (tanh exp : float -> float) (power : float -> float -> float) (sum : list float -> float) (dot : list float -> list float -> float).
  Hypothesis sum_ok : forall l, sums l (sum l).
  Hypothesis dot_ok : forall u v, length u = length v -> evaluates (combine u v) (dot u v).
  #[local] Hint Extern 0 (Num float) => exact (FNumD solve tanh exp power sum dot) : typeclass_instances.

  Definition sq_sum (e : list float) : R := Rsum (map (fun a => val a * val a) e).
  Definition abs_sum (e : list float) : R := Rsum (map (fun a => Rabs (val a)) e).
  Lemma p402 : 2 ^ 400 + 2 ^ 400 <= 2 ^ 401.
  Proof. replace (2 ^ 401) with (2 * 2 ^ 400) by (change 401%nat with (S 400); reflexivity). lra. Qed.
  Lemma diff_err a b : fin a -> fin b -> Rabs (val a) <= 2 ^ 400 -> Rabs (val b) <= 2 ^ 400 ->
    fin (PrimFloat.sub a b) /\ Rabs (val (PrimFloat.sub a b)) <= 2 ^ 402 /\ Rabs (val a - val b) <= 2 ^ 401 /\
    exists d, Rabs d <= uro /\ val (PrimFloat.sub a b) = (val a - val b) * (1 + d).
  Proof.
    intros Fa Fb Ha Hb. pose proof p402 as P.
    assert (F : fin (PrimFloat.sub a b)).
    { apply sub_ok; auto. unfold cap. apply Rle_trans with (2 ^ 401); [lra|apply Rle_pow; [lra|leb]]. }
    assert (D : Rabs (val a - val b) <= 2 ^ 401) by (eapply Rle_trans; [apply Rabs_triang|rewrite Rabs_Ropp; lra]).
    destruct (sub_err a b F) as (d & Hd & E). split; [exact F|]. split; [|split; [exact D|exists d; auto]].
    rewrite E, Rabs_mult. pose proof uro_small as U. assert (U1 : / 2 ^ 50 <= 1) by (rewrite <- Rinv_1; apply Rinv_le_contravar; [lra|apply pow_R1_Rle; lra]).
    assert (Rabs (1 + d) <= 2) by (eapply Rle_trans; [apply Rabs_triang|rewrite Rabs_R1; lra]).
    replace (2 ^ 402) with (2 ^ 401 * 2) by (rewrite Rmult_comm; change 402%nat with (S 401); reflexivity). apply Rmult_le_compat; try apply Rabs_pos; auto.
  Qed.
  Lemma diffs u : forall v, length u = length v -> sane u -> sane v ->
    let e := map2 PrimFloat.sub u v in
    Forall (fun a => fin a /\ Rabs (val a) <= 2 ^ 402) e /\ length e = length u /\
    (let s0 := Rsum (map2 (fun a b => (a - b) ^ 2) (map val u) (map val v)) in 0 <= s0 <= INR (length u) * 2 ^ 802 /\ 0 <= sq_sum e /\ Rabs (sq_sum e - s0) <= 3 * uro * s0) /\
    (let s0 := Rsum (map2 (fun a b => Rabs (a - b)) (map val u) (map val v)) in 0 <= s0 <= INR (length u) * 2 ^ 802 /\ 0 <= abs_sum e /\ Rabs (abs_sum e - s0) <= 3 * uro * s0).
  Proof.
    pose proof uro_pos as Hu. assert (U1 : uro <= 1). { eapply Rle_trans; [apply uro_small|]. rewrite <- Rinv_1. apply Rinv_le_contravar; [lra|apply pow_R1_Rle; lra]. }
    assert (P801 : 1 <= 2 ^ 401) by (apply pow_R1_Rle; lra). assert (E802 : 2 ^ 802 = 2 ^ 401 * 2 ^ 401) by (rewrite <- pow_add; reflexivity).
    induction u as [|a u IH]; intros [|b v] L Su Sv; try discriminate.
    - cbn [map2 map]. split; [constructor|]. split; [reflexivity|]. split; cbn -[Rabs pow]; unfold sq_sum, abs_sum; cbn -[Rabs pow]; rewrite Rminus_0_r, Rabs_R0; lra.
    - pose proof (Forall_inv Su) as (Fa & Ha). pose proof (Forall_inv Sv) as (Fb & Hb).
      destruct (IH v ltac:(injection L; auto) (Forall_inv_tail Su) (Forall_inv_tail Sv)) as (I1 & I2 & (I3 & I4 & I5) & (I6 & I7 & I8)). clear IH.
      destruct (diff_err a b Fa Fb Ha Hb) as (F & B & D & d & Hd & E). cbn [map2 map]. set (e := map2 PrimFloat.sub u v) in *. set (x := PrimFloat.sub a b) in *.
      assert (N : INR (length (a :: u)) * 2 ^ 802 = 2 ^ 802 + INR (length u) * 2 ^ 802) by (cbn [length]; rewrite S_INR; ring).
      split; [constructor; auto|]. split; [cbn; rewrite I2; reflexivity|]. rewrite N. set (t := val a - val b) in *.
      assert (T2 : 0 <= t ^ 2 <= 2 ^ 802).
      { split; [apply pow2_ge_0|]. rewrite E802. replace (t ^ 2) with (Rabs t * Rabs t) by (rewrite <- Rabs_mult, Rabs_pos_eq; [ring|apply Rle_0_sqr]). apply Rmult_le_compat; try apply Rabs_pos; auto. }
      assert (T1 : 0 <= Rabs t <= 2 ^ 802) by (split; [apply Rabs_pos|]; rewrite E802; nra).
      split.
      + set (s0 := Rsum (map2 (fun a b => (a - b) ^ 2) (map val u) (map val v))) in *.
        change (0 <= t ^ 2 + s0 <= 2 ^ 802 + INR (length u) * 2 ^ 802 /\ 0 <= val x * val x + sq_sum e /\ Rabs (val x * val x + sq_sum e - (t ^ 2 + s0)) <= 3 * uro * (t ^ 2 + s0)).
        assert (X : 0 <= val x * val x) by apply Rle_0_sqr. split; [lra|]. split; [lra|].
        replace (val x * val x + sq_sum e - (t ^ 2 + s0)) with ((2 * d + d * d) * t ^ 2 + (sq_sum e - s0)) by (rewrite E; ring).
        eapply Rle_trans; [apply Rabs_triang|]. rewrite Rmult_plus_distr_l. apply Rplus_le_compat; [|exact I5].
        rewrite Rabs_mult, (Rabs_pos_eq (t ^ 2)) by apply T2. apply Rmult_le_compat_r; [apply T2|].
        eapply Rle_trans; [apply Rabs_triang|]. rewrite !Rabs_mult, (Rabs_pos_eq 2) by lra. pose proof (Rabs_pos d). nra.
      + set (s0 := Rsum (map2 (fun a b => Rabs (a - b)) (map val u) (map val v))) in *.
        change (0 <= Rabs t + s0 <= 2 ^ 802 + INR (length u) * 2 ^ 802 /\ 0 <= Rabs (val x) + abs_sum e /\ Rabs (Rabs (val x) + abs_sum e - (Rabs t + s0)) <= 3 * uro * (Rabs t + s0)).
        pose proof (Rabs_pos (val x)) as X. split; [lra|]. split; [lra|].
        replace (Rabs (val x) + abs_sum e - (Rabs t + s0)) with ((Rabs (val x) - Rabs t) + (abs_sum e - s0)) by ring.
        eapply Rle_trans; [apply Rabs_triang|]. rewrite Rmult_plus_distr_l. apply Rplus_le_compat; [|exact I8].
        eapply Rle_trans; [apply Rabs_triang_inv2|]. rewrite E. replace (t * (1 + d) - t) with (d * t) by ring. rewrite Rabs_mult. apply Rmult_le_compat_r; [lra|]. lra.
  Qed.
  Lemma sq_prods e : prod_sum (combine e e) = sq_sum e /\ prod_abs (combine e e) = sq_sum e.
  Proof.
    induction e as [|a e (IH1 & IH2)]; [split; reflexivity|].
    split; [change (val a * val a + prod_sum (combine e e) = val a * val a + sq_sum e)|change (Rabs (val a * val a) + prod_abs (combine e e) = val a * val a + sq_sum e)].
    - rewrite IH1. reflexivity.
    - rewrite IH2, Rabs_pos_eq by apply Rle_0_sqr. reflexivity.
  Qed.
  Lemma abs_prods e : let l := map (fun a => (a, PrimFloat.one)) (map PrimFloat.abs e) in prod_sum l = abs_sum e /\ prod_abs l = abs_sum e.
  Proof.
    intros l. unfold l. clear l. induction e as [|a e (IH1 & IH2)]; [split; reflexivity|]. cbn [map].
    split; [change (val (PrimFloat.abs a) * val PrimFloat.one + prod_sum (map (fun a => (a, PrimFloat.one)) (map PrimFloat.abs e)) = Rabs (val a) + abs_sum e)|
      change (Rabs (val (PrimFloat.abs a) * val PrimFloat.one) + prod_abs (map (fun a => (a, PrimFloat.one)) (map PrimFloat.abs e)) = Rabs (val a) + abs_sum e)].
    - rewrite IH1, one_val, abs_val. ring.
    - rewrite IH2, one_val, abs_val, Rmult_1_r, Rabs_Rabsolu. reflexivity.
  Qed.
  Lemma size_ok n : (Z.of_nat n <= 2 ^ 40)%Z -> INR n * 2 ^ 802 <= 2 ^ 842.
  Proof.
    intros H. replace (2 ^ 842) with (2 ^ 40 * 2 ^ 802) by (rewrite <- pow_add; reflexivity). apply Rmult_le_compat_r; [left; apply pow_lt; lra|].
    rewrite INR_IZR_INZ. replace (2 ^ 40) with (IZR (2 ^ 40)) by (symmetry; exact (pow_IZR 2 40)). apply IZR_le. exact H.
  Qed.
  Lemma p842 : 2 * 2 ^ 842 <= 2 ^ 900 /\ 2 ^ 900 <= 2 ^ 990.
  Proof.
    split; [|apply Rle_pow; [lra|leb]]. apply Rle_trans with (2 ^ 843); [right; change 843%nat with (S 842); reflexivity|apply Rle_pow; [lra|leb]].
  Qed.

  Variables u v : list float.
  Hypothesis Hlen : length u = length v.
  Hypothesis Hne : u <> [].
  Hypothesis Hn : (Z.of_nat (length u) <= 2 ^ 40)%Z.
  Hypothesis Su : sane u.
  Hypothesis Sv : sane v.
  Let M := spec_MSE (map val u) (map val v).
  Let A := spec_MAE (map val u) (map val v).
  Let n := length u.
  Lemma n_pos : (0 < n)%nat.
  Proof. unfold n. destruct u; [contradiction|cbn; lia]. Qed.
  Lemma valid : get_valid_error u (ASeries v) = Ok (map2 PrimFloat.sub u v).
  Proof. unfold get_valid_error. rewrite Hlen, Nat.eqb_refl. reflexivity. Qed.

  Lemma mse_core : exists r, MSE u (ASeries v) = Ok r /\ fin r /\ 0 <= val r /\ Rabs (val r - M) <= 2 * (INR n + 3) * uro * M + 4 * eta.
  Proof.
    pose proof n_pos as Np. destruct (diffs u v Hlen Su Sv) as (H1 & H2 & (H3 & H4 & H5) & _). set (e := map2 PrimFloat.sub u v) in *.
    set (s0 := Rsum (map2 (fun a b => (a - b) ^ 2) (map val u) (map val v))) in *. cbv zeta in H3, H5.
    pose proof (size_ok n Hn) as SZ. destruct p842 as (P1 & P2). fold n in H2, H3. pose proof uro_pos as Hu.
    assert (U1 : 3 * uro <= 1). { pose proof uro_small as U. assert (/ 2 ^ 50 <= / 3); [apply Rinv_le_contravar; [lra|]|lra]. replace 3 with (4 - 1) by lra. assert (2 ^ 2 <= 2 ^ 50) by (apply Rle_pow; [lra|leb]). lra. }
    destruct (sq_prods e) as (Q1 & Q2). pose proof (dot_ok e e eq_refl) as EV.
    assert (SB : sq_sum e <= 2 * s0). { pose proof (Rle_abs (sq_sum e - s0)). assert (3 * uro * s0 <= 1 * s0) by (apply Rmult_le_compat_r; lra). lra. }
    assert (FD : fin (dot e e)).
    { apply (evaluates_fin _ _ EV).
      - intros (a & b) Hp. cbn [fst snd]. rewrite Forall_forall in H1. split; [apply (H1 a), (in_combine_l _ _ _ _ Hp)|apply (H1 b), (in_combine_r _ _ _ _ Hp)].
      - rewrite combine_length, Nat.min_id, H2. unfold n. apply Z.le_trans with (2 ^ 40)%Z; [exact Hn|discriminate].
      - rewrite Q2. lra. }
    destruct (evaluates_err _ _ EV FD) as (_ & EB). rewrite Q1, Q2, combine_length, Nat.min_id, H2 in EB.
    destruct (mean_err n (dot e e) (sq_sum e) s0 Np Hn FD ltac:(lra) H4 H5 EB) as (R1 & R2 & R3).
    exists (PrimFloat.div (dot e e) (f_of_Z (Z.of_nat n))). split; [|split; [exact R1|split]].
    - unfold MSE. rewrite valid. cbn [rmap]. fold e. rewrite H2. reflexivity.
    - apply R3. apply (ev_nonneg _ _ EV); [|exact FD]. apply Forall_forall. intros (a & b) Hp. cbn [fst snd].
      assert (a = b) as ->; [|apply Rle_0_sqr]. clear -Hp. induction e as [|c e IH]; [destruct Hp|]. destruct Hp as [Hp|Hp]; [congruence|auto].
    - unfold M, spec_MSE. rewrite map_length. exact R2.
  Qed.

  (** *** C93.  The mean squared error: relative error at most 2 (n + 3) 2^-53 (plus 2^-1073, the price of underflow) *)
  Theorem C93_MSE : exists r, MSE u (ASeries v) = Ok r /\ fin r /\ 0 <= val r /\
    Rabs (val r - spec_MSE (map val u) (map val v)) <= 2 * (INR (length u) + 3) * uro * spec_MSE (map val u) (map val v) + / 2 ^ 1073.
  Proof.
    destruct mse_core as (r & H1 & H2 & H3 & H4). exists r. split; [exact H1|]. split; [exact H2|]. split; [exact H3|].
    replace (/ 2 ^ 1073) with (4 * eta); [exact H4|]. unfold eta. replace (2 ^ 1075) with (4 * 2 ^ 1073); [field; apply pow_nonzero; lra|].
    replace 4 with (2 ^ 2) by lra. rewrite <- pow_add. reflexivity.
  Qed.
  Theorem C93_MAE : exists r, MAE u (ASeries v) = Ok r /\ fin r /\ 0 <= val r /\
    Rabs (val r - spec_MAE (map val u) (map val v)) <= 2 * (INR (length u) + 3) * uro * spec_MAE (map val u) (map val v) + / 2 ^ 1073.
  Proof.
    pose proof n_pos as Np. destruct (diffs u v Hlen Su Sv) as (H1 & H2 & _ & (H3 & H4 & H5)). set (e := map2 PrimFloat.sub u v) in *.
    set (s0 := Rsum (map2 (fun a b => Rabs (a - b)) (map val u) (map val v))) in *. cbv zeta in H3, H5.
    pose proof (size_ok n Hn) as SZ. destruct p842 as (P1 & P2). fold n in H2, H3. pose proof uro_pos as Hu.
    assert (U1 : 3 * uro <= 1). { pose proof uro_small as U. assert (/ 2 ^ 50 <= / 3); [apply Rinv_le_contravar; [lra|]|lra]. replace 3 with (4 - 1) by lra. assert (2 ^ 2 <= 2 ^ 50) by (apply Rle_pow; [lra|leb]). lra. }
    destruct (abs_prods e) as (Q1 & Q2). cbv zeta in Q1, Q2. pose proof (sums_evaluates _ _ (sum_ok (map PrimFloat.abs e))) as EV.
    assert (SB : abs_sum e <= 2 * s0). { pose proof (Rle_abs (abs_sum e - s0)). assert (3 * uro * s0 <= 1 * s0) by (apply Rmult_le_compat_r; lra). lra. }
    assert (FD : fin (sum (map PrimFloat.abs e))).
    { apply (evaluates_fin _ _ EV).
      - intros p Hp. apply in_map_iff in Hp as (a & <- & Ha). apply in_map_iff in Ha as (b & <- & Hb). cbn [fst snd]. rewrite Forall_forall in H1. split; [apply abs_ok, (H1 b Hb)|exact I].
      - rewrite !map_length, H2. unfold n. apply Z.le_trans with (2 ^ 40)%Z; [exact Hn|discriminate].
      - rewrite Q2. lra. }
    destruct (evaluates_err _ _ EV FD) as (_ & EB). rewrite Q1, Q2, !map_length, H2 in EB.
    destruct (mean_err n (sum (map PrimFloat.abs e)) (abs_sum e) s0 Np Hn FD ltac:(lra) H4 H5 EB) as (R1 & R2 & R3).
    exists (PrimFloat.div (sum (map PrimFloat.abs e)) (f_of_Z (Z.of_nat n))). split; [|split; [exact R1|split]].
    - unfold MAE. rewrite valid. cbn [rmap]. fold e. rewrite H2. reflexivity.
    - apply R3. apply (ev_nonneg _ _ EV); [|exact FD]. apply Forall_forall. intros p Hp. apply in_map_iff in Hp as (a & <- & Ha). apply in_map_iff in Ha as (b & <- & Hb). cbn [fst snd].
      rewrite one_val, abs_val, Rmult_1_r. apply Rabs_pos.
    - unfold spec_MAE. rewrite map_length. replace (/ 2 ^ 1073) with (4 * eta); [exact R2|]. unfold eta. replace (2 ^ 1075) with (4 * 2 ^ 1073); [field; apply pow_nonzero; lra|].
      replace 4 with (2 ^ 2) by lra. rewrite <- pow_add. reflexivity.
  Qed.
  Theorem C93_RMSE : exists r, RMSE u (ASeries v) = Ok r /\ fin r /\ 0 <= val r /\
    let m := sqrt (spec_MSE (map val u) (map val v)) in Rabs (val r - m) <= 2 * (INR (length u) + 4) * uro * m + / 2 ^ 535.
  Proof.
    destruct mse_core as (q & H1 & H2 & H3 & H4). destruct (sqrt_ok q H2 H3) as (F & V).
    exists (PrimFloat.sqrt q). split; [|split; [exact F|split]].
    - revert H1. unfold MSE, RMSE. rewrite valid. cbn [rmap]. intros [= <-]. reflexivity.
    - rewrite V. apply rnd_nonneg, sqrt_pos.
    - intros m. fold M in m. fold n. set (N := INR n) in *. pose proof uro_pos as Hu. pose proof eta_pos as He.
      assert (HM : 0 <= M). { apply spec_MSE_nonneg. destruct u; [contradiction|discriminate]. }
      assert (N0 : 0 <= N) by apply pos_INR.
      assert (NU : (2 * (N + 3) * uro) <= / 4).
      { assert (NU : N * uro <= / 2 ^ 13).
        { unfold uro, N. rewrite INR_IZR_INZ. apply Rle_trans with (2 ^ 40 * / 2 ^ 53).
          - apply Rmult_le_compat_r; [left; apply Rinv_0_lt_compat, pow_lt; lra|]. replace (2 ^ 40) with (IZR (2 ^ 40)) by (symmetry; exact (pow_IZR 2 40)). apply IZR_le. exact Hn.
          - right. exact (pw 40 53 ltac:(lia)). }
        assert (U : uro <= / 2 ^ 13) by (eapply Rle_trans; [apply uro_small|apply pw_le; leb]). assert (/ 2 ^ 13 <= / 100) by (simpl; lra). lra. }
      assert (AL : 0 <= 2 * (N + 3) * uro <= 1) by (split; [apply Rmult_le_pos; lra|lra]).
      pose proof (sqrt_close (val q) M (2 * (N + 3) * uro) (4 * eta) H3 HM AL ltac:(lra) H4) as C. fold m in C. pose proof (sqrt_pos M) as Pm. fold m in Pm.
      assert (SE : sqrt (4 * eta) <= / 2 ^ 536).
      { rewrite <- (sqrt_square (/ 2 ^ 536)) by (left; apply Rinv_0_lt_compat, pow_lt; lra). apply sqrt_le_1_alt. rewrite <- Rinv_mult, <- pow_add. change (536 + 536)%nat with 1072%nat.
        unfold eta. replace (2 ^ 1075) with (8 * 2 ^ 1072) by (replace 8 with (2 ^ 3) by lra; rewrite <- pow_add; reflexivity).
        assert (0 < / 2 ^ 1072) by (apply Rinv_0_lt_compat, pow_lt; lra). rewrite Rinv_mult. lra. }
      assert (E536 : / 2 ^ 535 = 2 * / 2 ^ 536). { replace (2 ^ 536) with (2 * 2 ^ 535) by (change 536%nat with (S 535); reflexivity). field; try (apply pow_nonzero; lra). }
      assert (EE : eta <= / 4 * / 2 ^ 536). { unfold eta. replace (2 ^ 1075) with (2 ^ 539 * 2 ^ 536) by (rewrite <- pow_add; reflexivity). rewrite Rinv_mult. apply Rmult_le_compat_r; [left; apply Rinv_0_lt_compat, pow_lt; lra|].
        replace (/ 4) with (/ 2 ^ 2) by lra. apply pw_le. leb. }
      set (s := sqrt (val q)) in *. assert (S1 : Rabs s <= 2 * m + / 2 ^ 536).
      { replace s with ((s - m) + m) by ring. eapply Rle_trans; [apply Rabs_triang|]. rewrite (Rabs_pos_eq m Pm). assert (2 * (N + 3) * uro * m <= 1 * m) by (apply Rmult_le_compat_r; lra). lra. }
      destruct (rnd_mul s) as (d & h & Hd & Hh & ER). rewrite V. fold s. rewrite ER.
      replace (s * (1 + d) + h - m) with ((s - m) + (d * s + h)) by ring. eapply Rle_trans; [apply Rabs_triang|].
      assert (Rabs (d * s + h) <= uro * (2 * m + / 2 ^ 536) + eta).
      { eapply Rle_trans; [apply Rabs_triang|]. rewrite Rabs_mult. apply Rplus_le_compat; [|exact Hh]. apply Rmult_le_compat; try apply Rabs_pos; assumption. }
      assert (P536 : 0 < / 2 ^ 536) by (apply Rinv_0_lt_compat, pow_lt; lra).
      assert (UU : uro <= / 4). { eapply Rle_trans; [apply uro_small|]. replace (/ 4) with (/ 2 ^ 2) by lra. apply pw_le. leb. }
      assert (uro * / 2 ^ 536 <= / 4 * / 2 ^ 536) by (apply Rmult_le_compat_r; lra). lra.
  Qed.

  (** a series of finite numbers compared with itself: exactly zero, in all three *)
  Theorem C93_identical : u = v -> Forall fin u -> exists m a r, MSE u (ASeries v) = Ok m /\ MAE u (ASeries v) = Ok a /\ RMSE u (ASeries v) = Ok r /\
    is_zero m /\ is_zero a /\ is_zero r.
  Proof.
    intros E HF. pose proof n_pos as Np. set (e := map2 PrimFloat.sub u v).
    assert (Z : Forall zr e).
    { unfold e. rewrite <- E. clear -HF. induction HF as [|a l Ha _ IH]; [constructor|]. cbn [map2]. constructor; [apply sub_self; exact Ha|exact IH]. }
    assert (L : length e = n) by (unfold e; rewrite map2_len, <- Hlen; apply Nat.min_id).
    destruct (count_val n) as (FN & VN). { apply Z.le_lt_trans with (2 ^ 40)%Z; [exact Hn|reflexivity]. }
    assert (NZ : ~ zr (f_of_Z (Z.of_nat n))). { intros H. apply zr_val in H. rewrite VN in H. apply lt_0_INR in Np. lra. }
    assert (ZD : zr (dot e e)).
    { apply (ev_zr _ _ (dot_ok e e eq_refl)). apply Forall_forall. intros (a & b) Hp. right. cbn [fst snd]. rewrite Forall_forall in Z.
      split; [apply Z, (in_combine_l _ _ _ _ Hp)|apply zr_fin, Z, (in_combine_r _ _ _ _ Hp)]. }
    assert (ZS : zr (sum (map PrimFloat.abs e))).
    { apply (ev_zr _ _ (sums_evaluates _ _ (sum_ok (map PrimFloat.abs e)))). apply Forall_forall. intros p Hp. apply in_map_iff in Hp as (a & <- & Ha). apply in_map_iff in Ha as (b & <- & Hb).
      right. cbn [fst snd]. rewrite Forall_forall in Z. split; [|exact I]. specialize (Z b Hb). revert Z. unfold zr. rewrite abs_spec. destruct (Prim2SF b); auto. }
    exists (PrimFloat.div (dot e e) (f_of_Z (Z.of_nat n))), (PrimFloat.div (sum (map PrimFloat.abs e)) (f_of_Z (Z.of_nat n))), (PrimFloat.sqrt (PrimFloat.div (dot e e) (f_of_Z (Z.of_nat n)))).
    unfold MSE, MAE, RMSE. rewrite valid. cbn [rmap]. fold e. rewrite L. split; [reflexivity|]. split; [reflexivity|]. split; [reflexivity|].
    assert (Zq : zr (PrimFloat.div (dot e e) (f_of_Z (Z.of_nat n)))) by (apply div_zr; assumption).
    split; [apply zr_spec; exact Zq|]. split; [apply zr_spec, div_zr; assumption|apply zr_spec, zr_sqrt; exact Zq].
  Qed.
End C93.

(** ** The hypotheses are met; different series can look identical *)
Lemma fold_sums l : forall a r k, sums k r -> a = r -> sums (k ++ l) (fold_left PrimFloat.add l a).
Proof.
  induction l as [|b l IH]; intros a r k H ->; [rewrite app_nil_r; exact H|]. cbn [fold_left].
  replace (k ++ b :: l) with ((k ++ [b]) ++ l) by (rewrite <- app_assoc; reflexivity). eapply IH; [|reflexivity]. apply sum_add; [exact H|apply sum_one].
Qed.
Example C93_hypotheses : (forall l, sums l (plain_sum l)) /\ (forall u v, length u = length v -> evaluates (combine u v) (plain_dot u v)) /\
  sane [PrimFloat.one; tenth; PrimFloat.two] /\ sane [tenth; PrimFloat.zero; PrimFloat.one] /\ (Z.of_nat 3 <= 2 ^ 40)%Z /\
  exists r, @MSE _ round_num [PrimFloat.one; tenth; PrimFloat.two] (ASeries [tenth; PrimFloat.zero; PrimFloat.one]) = Ok r /\ val r <> 0.
Proof.
  split; [intros l; exact (fold_sums l _ _ [] sum_zero eq_refl)|]. split; [exact plain_dot_ok|].
  assert (P400 : 1 * 2 <= 2 ^ 400) by (apply Rle_trans with (2 ^ 1); [lra|apply Rle_pow; [lra|leb]]).
  assert (B : forall a, finb a = true -> (Qle_bool (Qminus 0 2) (valQ a) && Qle_bool (valQ a) 2 = true)%bool -> fin a /\ Rabs (val a) <= 2 ^ 400).
  { intros a H1 H2. split; [apply finb_ok; exact H1|]. rewrite val_Q. apply andb_prop in H2 as (H2 & H3). apply Qle_bool_iff in H2, H3. apply Qle_Rle in H2, H3.
    assert (Q2R 2 = 2) by (unfold Q2R; cbn; lra). assert (Q2R (0 - 2) = -2) by (unfold Q2R; cbn; lra). apply Rabs_le. lra. }
  split; [repeat (constructor; [apply B; vm_compute; reflexivity|]); constructor|].
  split; [repeat (constructor; [apply B; vm_compute; reflexivity|]); constructor|]. split; [vm_compute; discriminate|].
  eexists. split; [vm_compute; reflexivity|]. rewrite val_Q. intros H.
  assert (H0 : Q2R 0 = 0) by (unfold Q2R; cbn; lra). rewrite <- H0 in H. apply eqR_Qeq in H. revert H. vm_compute. discriminate.
Qed.
(** the difference 2^-600 is lost by MSE and RMSE, not by MAE *)
Example C93_underflow : let a := FloatOps.Z.ldexp PrimFloat.one (-600) in
  @MSE _ round_num [a] (ASeries [PrimFloat.zero]) = Ok PrimFloat.zero /\ @RMSE _ round_num [a] (ASeries [PrimFloat.zero]) = Ok PrimFloat.zero /\
  @MAE _ round_num [a] (ASeries [PrimFloat.zero]) = Ok a /\ PrimFloat.eqb a PrimFloat.zero = false.
Proof. vm_compute. repeat split; reflexivity. Qed.
