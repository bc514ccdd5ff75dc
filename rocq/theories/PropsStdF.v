(** C94: standardize and standardize_back in binary64. *)
From Coq Require Import ZArith QArith Qreals Reals Lra Psatz Permutation Uint63 FloatOps FloatAxioms SpecFloat.
From Coq Require PrimFloat.
From Flocq Require Import Core BinarySingleNaN.
From Flocq Require IEEE754.PrimFloat.
From Verif Require Import Py Num NumF Numpy Preprocess RMat RVec FloatErr PropsRound PropsRoundRun PropsWindup PropsNoOverflow PropsMeasureF.
Open Scope R_scope.
#[local] Existing Instance Flocq.IEEE754.PrimFloat.Hprec.
#[local] Existing Instance Flocq.IEEE754.PrimFloat.Hmax.
#[local] Notation sqrt := R_sqrt.sqrt.

(** ** Specification: mean, mean absolute value and standard deviation of real numbers *)
Definition avg (v : rvec) : R := Rsum v / INR (length v).
Definition avg_abs (v : rvec) : R := Rsum (map Rabs v) / INR (length v).
Definition deviation (v : rvec) : R := sqrt (avg (map (fun a => (a - avg v) ^ 2) v)).

Lemma U13 : uro <= / 2 ^ 13 /\ / 2 ^ 13 <= / 100.
Proof. split; [eapply Rle_trans; [apply uro_small|apply pw_le; leb]|simpl; lra]. Qed.
Lemma NU13 n : (Z.of_nat n <= 2 ^ 40)%Z -> INR n * uro <= / 2 ^ 13.
Proof.
  intros H. unfold uro. rewrite INR_IZR_INZ. apply Rle_trans with (2 ^ 40 * / 2 ^ 53).
  - apply Rmult_le_compat_r; [left; apply Rinv_0_lt_compat, pow_lt; lra|]. replace (2 ^ 40) with (IZR (2 ^ 40)) by (symmetry; exact (pow_IZR 2 40)). apply IZR_le. exact H.
  - right. exact (pw 40 53 ltac:(lia)).
Qed.
Lemma eta1 : eta <= 1.
Proof. eapply Rle_trans; [apply eta_small|]. rewrite <- Rinv_1. apply Rinv_le_contravar; [lra|apply pow_R1_Rle; lra]. Qed.

(** ** dividing a computed sum by the count: S is the exact sum the float D approximates, S0 the wanted one, A0 the scale *)
Lemma mean_gen n (D : float) S0 A0 c : (0 < n)%nat -> (Z.of_nat n <= 2 ^ 40)%Z -> fin D -> Rabs S0 <= A0 -> A0 <= 2 ^ 900 -> 0 <= c <= 10 ->
  Rabs (val D - S0) <= (2 * INR n + c) * uro * A0 + 4 * INR n * eta ->
  let r := PrimFloat.div D (f_of_Z (Z.of_nat n)) in
  fin r /\ Rabs (val r - S0 / INR n) <= (2 * INR n + c + 2) * uro * (A0 / INR n) + 6 * eta /\ (0 <= val D -> 0 <= val r).
Proof.
  intros Hn Hn40 FD HS0 HA Hc H r. destruct (count_val n) as (FN & VN). { apply Z.le_lt_trans with (2 ^ 40)%Z; [exact Hn40|reflexivity]. }
  pose proof uro_pos as Hu. pose proof eta_pos as He. pose proof (NU13 n Hn40) as NU. destruct U13 as (U & P13). pose proof eta1 as E1.
  assert (N1 : 1 <= INR n) by (replace 1 with (INR 1) by reflexivity; apply le_INR; lia).
  set (M := S0 / INR n). set (B := A0 / INR n). set (N := INR n) in *. assert (EM : S0 = N * M) by (unfold M; field; lra). assert (EB : A0 = N * B) by (unfold B; field; lra).
  assert (HA0 : 0 <= A0) by (pose proof (Rabs_pos S0); lra).
  assert (HB : 0 <= B) by (unfold B; apply Rmult_le_pos; [lra|left; apply Rinv_0_lt_compat; lra]).
  assert (HM : Rabs M <= B). { apply Rmult_le_reg_l with N; [lra|]. rewrite <- EB. replace (N * Rabs M) with (Rabs S0); [exact HS0|]. rewrite EM, Rabs_mult, (Rabs_pos_eq N) by lra. reflexivity. }
  set (Q := val D / N). assert (EQ : val D = N * Q) by (unfold Q; field; lra).
  assert (QB : Rabs (Q - M) <= (2 * N + c) * uro * B + 4 * eta).
  { apply Rmult_le_reg_l with N; [lra|]. replace (N * Rabs (Q - M)) with (Rabs (val D - S0)). 2: { rewrite EQ, EM. replace (N * Q - N * M) with (N * (Q - M)) by ring. rewrite Rabs_mult, (Rabs_pos_eq N) by lra. reflexivity. }
    eapply Rle_trans; [exact H|]. rewrite EB. right. ring. }
  assert (Q2 : Rabs Q <= 2 * B + 4 * eta).
  { replace Q with ((Q - M) + M) by ring. eapply Rle_trans; [apply Rabs_triang|].
    assert ((2 * N + c) * uro * B <= 1 * B) by (apply Rmult_le_compat_r; [lra|]; nra). lra. }
  assert (MB : B <= 2 ^ 900). { apply Rle_trans with A0; [|lra]. rewrite EB. rewrite <- (Rmult_1_l B) at 1. apply Rmult_le_compat_r; lra. }
  assert (P900 : 1 <= 2 ^ 900) by (apply pow_R1_Rle; lra).
  assert (F : fin r).
  { apply div_ok; [exact FD|exact FN|rewrite VN; fold N; lra|]. rewrite VN. fold N. fold Q. unfold cap. replace (2 ^ 1000) with (2 ^ 100 * 2 ^ 900) by (rewrite <- pow_add; reflexivity).
    assert (8 <= 2 ^ 100) by (replace 8 with (2 ^ 3) by lra; apply Rle_pow; [lra|leb]). nra. }
  split; [exact F|]. split.
  - unfold r. destruct (div_err D (f_of_Z (Z.of_nat n)) F FN) as (d & h & Hd & Hh & V); [rewrite VN; fold N; lra|].
    rewrite V, VN. fold N. fold Q. replace (Q * (1 + d) + h - M) with ((Q - M) + (d * Q + h)) by ring.
    eapply Rle_trans; [apply Rabs_triang|]. assert (Rabs (d * Q + h) <= uro * (2 * B + 4 * eta) + eta).
    { eapply Rle_trans; [apply Rabs_triang|]. rewrite Rabs_mult. apply Rplus_le_compat; [|exact Hh]. apply Rmult_le_compat; try apply Rabs_pos; assumption. }
    assert (uro * (4 * eta) <= / 100 * (4 * eta)) by (apply Rmult_le_compat_r; lra). lra.
  - intros HD. unfold r. destruct (div_round D (f_of_Z (Z.of_nat n)) F FN) as (_ & ->); [rewrite VN; fold N; lra|]. apply rnd_nonneg. rewrite VN. fold N.
    apply Rmult_le_pos; [exact HD|left; apply Rinv_0_lt_compat; lra].
Qed.

(** ** sums of floats in any order *)
Lemma ones_prods l : prod_sum (map (fun a => (a, PrimFloat.one)) l) = Rsum (map val l) /\ prod_abs (map (fun a => (a, PrimFloat.one)) l) = Rsum (map Rabs (map val l)).
Proof.
  induction l as [|a l (IH1 & IH2)]; [split; reflexivity|]. cbn [map].
  split; [change (val a * val PrimFloat.one + prod_sum (map (fun a => (a, PrimFloat.one)) l) = val a + Rsum (map val l))|
    change (Rabs (val a * val PrimFloat.one) + prod_abs (map (fun a => (a, PrimFloat.one)) l) = Rabs (val a) + Rsum (map Rabs (map val l)))].
  - rewrite IH1, one_val. ring.
  - rewrite IH2, one_val, Rmult_1_r. reflexivity.
Qed.
Lemma Rsum_abs_le l : Rabs (Rsum l) <= Rsum (map Rabs l).
Proof. induction l as [|a l IH]; cbn; [rewrite Rabs_R0; lra|]. eapply Rle_trans; [apply Rabs_triang|]. lra. Qed.
Lemma Rsum_abs_nonneg l : 0 <= Rsum (map Rabs l).
Proof. induction l as [|a l IH]; cbn; [lra|]. pose proof (Rabs_pos a). lra. Qed.
Lemma Rsum_bound l b : (forall a, In a l -> Rabs a <= b) -> Rsum (map Rabs l) <= INR (length l) * b.
Proof.
  induction l as [|a l IH]; intros H; [cbn; lra|]. cbn [map length]. rewrite S_INR. change (Rabs a + Rsum (map Rabs l) <= (INR (length l) + 1) * b).
  pose proof (H a (or_introl eq_refl)). assert (Rsum (map Rabs l) <= INR (length l) * b) by (apply IH; intros; apply H; right; assumption). lra.
Qed.
Lemma any_sum l r : sums l r -> (Z.of_nat (length l) <= 2 ^ 40)%Z -> Forall fin l -> Rsum (map Rabs (map val l)) <= 2 ^ 990 ->
  fin r /\ Rabs (val r - Rsum (map val l)) <= 2 * INR (length l) * (uro * Rsum (map Rabs (map val l)) + eta).
Proof.
  intros HS HL HF HB. pose proof (sums_evaluates _ _ HS) as EV. destruct (ones_prods l) as (Q1 & Q2).
  assert (HL50 : (Z.of_nat (length l) <= 2 ^ 50)%Z) by (apply Z.le_trans with (2 ^ 40)%Z; [exact HL|discriminate]).
  assert (F : fin r).
  { apply (evaluates_fin _ _ EV).
    - intros p Hp. apply in_map_iff in Hp as (a & <- & Ha). cbn [fst snd]. rewrite Forall_forall in HF. split; [apply HF, Ha|exact I].
    - rewrite map_length. exact HL50.
    - rewrite Q2. exact HB. }
  split; [exact F|]. destruct (evaluates_err _ _ EV F) as (_ & EB). rewrite Q1, Q2, map_length in EB.
  eapply Rle_trans; [exact EB|]. apply dot_slack_small; [exact HL50|apply Rsum_abs_nonneg].
Qed.

(** ** squared deviations *)
Lemma p_mono a b : (a <= b)%nat -> 2 ^ a <= 2 ^ b.
Proof. intros H. apply Rle_pow; [lra|exact H]. Qed.
Lemma dev_one a m : fin a -> fin m -> Rabs (val a) <= 2 ^ 400 -> Rabs (val m) <= 2 ^ 402 ->
  let p := fpown (PrimFloat.abs (PrimFloat.sub a m)) 2 in
  fin p /\ Rabs (val p - (val a - val m) ^ 2) <= 4 * uro * (val a - val m) ^ 2 + eta /\ 0 <= val p /\ (val a - val m) ^ 2 <= 2 ^ 806.
Proof.
  intros Fa Fm Ha Hm p. pose proof uro_pos as Hu. pose proof eta_pos as He. destruct U13 as (U & P13). pose proof eta1 as E1.
  set (y := PrimFloat.sub a m). set (t := val a - val m).
  assert (P : 2 ^ 400 + 2 ^ 402 <= 2 ^ 403). { replace (2 ^ 403) with (2 * 2 ^ 402) by (change 403%nat with (S 402); reflexivity). pose proof (p_mono 400 402 ltac:(lia)). lra. }
  assert (Ht : Rabs t <= 2 ^ 403) by (unfold t; eapply Rle_trans; [apply Rabs_triang|rewrite Rabs_Ropp; lra]).
  assert (Fy : fin y) by (apply sub_ok; auto; unfold cap; apply Rle_trans with (2 ^ 403); [lra|apply p_mono; leb]).
  destruct (sub_err a m Fy) as (d & Hd & Ey). fold y t in Ey.
  assert (T2 : 0 <= t ^ 2 <= 2 ^ 806).
  { split; [apply pow2_ge_0|]. replace (2 ^ 806) with (2 ^ 403 * 2 ^ 403) by (rewrite <- pow_add; reflexivity).
    replace (t ^ 2) with (Rabs t * Rabs t) by (rewrite <- Rabs_mult, Rabs_pos_eq; [ring|apply Rle_0_sqr]). apply Rmult_le_compat; try apply Rabs_pos; auto. }
  change p with (PrimFloat.mul (PrimFloat.abs y) (PrimFloat.abs y)) in *. clear p. set (p := PrimFloat.mul (PrimFloat.abs y) (PrimFloat.abs y)).
  assert (Z2 : val (PrimFloat.abs y) * val (PrimFloat.abs y) = t ^ 2 * (1 + (2 * d + d * d))).
  { rewrite abs_val, <- Rabs_mult, Rabs_pos_eq by apply Rle_0_sqr. rewrite Ey. ring. }
  assert (DD : Rabs (2 * d + d * d) <= 2 * uro + uro * uro).
  { eapply Rle_trans; [apply Rabs_triang|]. rewrite !Rabs_mult, (Rabs_pos_eq 2) by lra. apply Rplus_le_compat; [lra|]. apply Rmult_le_compat; try apply Rabs_pos; auto. }
  assert (UU : uro * uro <= / 100 * uro) by (apply Rmult_le_compat_r; lra).
  assert (Fp : fin p).
  { apply mul_ok; [apply abs_ok; exact Fy|apply abs_ok; exact Fy|]. rewrite Z2, Rabs_mult, (Rabs_pos_eq (t ^ 2)) by apply T2. unfold cap.
    apply Rle_trans with (2 ^ 806 * 2); [|replace (2 ^ 806 * 2) with (2 ^ 807) by (change 807%nat with (S 806); cbn [pow]; ring); apply p_mono; leb].
    apply Rmult_le_compat; [apply T2|apply Rabs_pos|apply T2|]. eapply Rle_trans; [apply Rabs_triang|]. rewrite Rabs_R1. lra. }
  split; [exact Fp|]. destruct (mul_err _ _ Fp) as (d2 & h & Hd2 & Hh & Ep). fold p in Ep.
  split; [|split; [|apply T2]].
  - rewrite Ep, Z2. set (c := 2 * d + d * d) in *.
    replace (t ^ 2 * (1 + c) * (1 + d2) + h - t ^ 2) with ((c + d2 + c * d2) * t ^ 2 + h) by ring.
    eapply Rle_trans; [apply Rabs_triang|]. apply Rplus_le_compat; [|exact Hh]. rewrite Rabs_mult, (Rabs_pos_eq (t ^ 2)) by apply T2. apply Rmult_le_compat_r; [apply T2|].
    eapply Rle_trans; [apply Rabs_triang|]. rewrite Rabs_mult. assert (Rabs c * Rabs d2 <= / 10 * uro) by (apply Rmult_le_compat; try apply Rabs_pos; lra).
    pose proof (Rabs_triang c d2). lra.
  - unfold p. destruct (mul_round _ _ Fp) as (_ & _ & ->). apply rnd_nonneg. apply Rle_0_sqr.
Qed.
Lemma dev_list m x : fin m -> Rabs (val m) <= 2 ^ 402 -> sane x ->
  let t := map (fun a => fpown (PrimFloat.abs (PrimFloat.sub a m)) 2) x in let s0 := Rsum (map (fun a => (a - val m) ^ 2) (map val x)) in
  Forall fin t /\ Forall (fun p => 0 <= val p) t /\ 0 <= s0 <= INR (length x) * 2 ^ 806 /\ Rabs (Rsum (map val t) - s0) <= 4 * uro * s0 + INR (length x) * eta.
Proof.
  intros Fm Hm. pose proof uro_pos as Hu. pose proof eta_pos as He. induction x as [|a x IH]; intros Sx; cbv zeta.
  - cbn. split; [constructor|]. split; [constructor|]. rewrite Rminus_0_r, Rabs_R0. lra.
  - destruct (Forall_inv Sx) as (Fa & Ha). destruct (IH (Forall_inv_tail Sx)) as (I1 & I2 & I3 & I4). destruct (dev_one a m Fa Fm Ha Hm) as (D1 & D2 & D3 & D4).
    cbn [map length]. rewrite S_INR. set (p := fpown (PrimFloat.abs (PrimFloat.sub a m)) 2) in *. set (s0 := Rsum (map (fun a => (a - val m) ^ 2) (map val x))) in *.
    set (s := Rsum (map val (map (fun a => fpown (PrimFloat.abs (PrimFloat.sub a m)) 2) x))) in *. pose proof (pow2_ge_0 (val a - val m)) as P.
    split; [constructor; auto|]. split; [constructor; auto|].
    change (0 <= (val a - val m) ^ 2 + s0 <= (INR (length x) + 1) * 2 ^ 806 /\ Rabs (val p + s - ((val a - val m) ^ 2 + s0)) <= 4 * uro * ((val a - val m) ^ 2 + s0) + (INR (length x) + 1) * eta).
    split; [lra|]. replace (val p + s - ((val a - val m) ^ 2 + s0)) with ((val p - (val a - val m) ^ 2) + (s - s0)) by ring.
    eapply Rle_trans; [apply Rabs_triang|]. lra.
Qed.
Lemma split_var l c m : c = avg l -> l <> [] -> avg (map (fun a => (a - m) ^ 2) l) = avg (map (fun a => (a - c) ^ 2) l) + (m - c) ^ 2.
Proof.
  intros E Hn. assert (N : 0 < INR (length l)) by (apply lt_0_INR; destruct l; [contradiction|cbn; lia]).
  assert (S : forall k, Rsum (map (fun a => (a - m) ^ 2) k) = Rsum (map (fun a => (a - c) ^ 2) k) + 2 * (c - m) * (Rsum k - INR (length k) * c) + INR (length k) * (m - c) ^ 2).
  { induction k as [|a k IH]; [cbn; ring|]. cbn [map length]. rewrite S_INR.
    change (Rsum (?a :: ?b)) with (a + Rsum b). cbn [Rsum]. rewrite IH. ring. }
  unfold avg in *. rewrite !map_length, S. assert (Z : Rsum l - INR (length l) * c = 0) by (rewrite E; field; lra). rewrite Z. field. lra.
Qed.

Section C94.
  Variable solve : list (list float) -> list (list float) -> option (list (list float)).
  Variables (tanh exp : float -> float) (power : float -> float -> float) (sum : list float -> float) (dot : list float -> list float -> float).
  Hypothesis sum_ok : forall l, sums l (sum l).
  #[local] Hint Extern 0 (Num float) => exact (FNumD solve tanh exp power sum dot) : typeclass_instances.

  Section Default.
  Variable x : list float.
  Hypothesis Hne : x <> [].
  Hypothesis Hn : (Z.of_nat (length x) <= 2 ^ 40)%Z.
  Hypothesis Sx : sane x.
  Let X := map val x.
  Let n := length x.
  Lemma len_pos : (0 < n)%nat.
  Proof. unfold n. destruct x; [contradiction|cbn; lia]. Qed.

  (** *** C94.  The mean that standardize subtracts *)
  Theorem C94_mean : fin (mean x) /\ Rabs (val (mean x) - avg X) <= 2 * (INR (length x) + 1) * uro * avg_abs X + 6 * eta /\ avg_abs X <= 2 ^ 400.
  Proof.
    pose proof len_pos as Np. assert (Fx : Forall fin x) by (eapply Forall_impl; [|exact Sx]; intros a H; apply H).
    assert (AB : Rsum (map Rabs X) <= INR n * 2 ^ 400).
    { unfold n. rewrite <- (map_length val x). apply Rsum_bound. intros a Ha. apply in_map_iff in Ha as (b & <- & Hb). unfold sane in Sx. rewrite Forall_forall in Sx. apply Sx, Hb. }
    assert (N40 : INR n <= 2 ^ 40). { rewrite INR_IZR_INZ. replace (2 ^ 40) with (IZR (2 ^ 40)) by (symmetry; exact (pow_IZR 2 40)). apply IZR_le. exact Hn. }
    assert (N1 : 1 <= INR n) by (replace 1 with (INR 1) by reflexivity; apply le_INR; lia).
    assert (A440 : Rsum (map Rabs X) <= 2 ^ 440).
    { eapply Rle_trans; [exact AB|]. change 440%nat with (40 + 400)%nat. rewrite pow_add. apply Rmult_le_compat_r; [left; apply pow_lt; lra|exact N40]. }
    destruct (any_sum x (sum x) (sum_ok x) Hn Fx) as (F & B). { eapply Rle_trans; [exact A440|apply p_mono; leb]. }
    fold X n in B. pose proof eta_pos as He. pose proof uro_pos as Hu. pose proof (Rsum_abs_nonneg X) as P0.
    destruct (mean_gen n (sum x) (Rsum X) (Rsum (map Rabs X)) 0 Np Hn F (Rsum_abs_le X)) as (R1 & R2 & _).
    - eapply Rle_trans; [exact A440|apply p_mono; leb].
    - lra.
    - assert (0 <= INR n * eta) by (apply Rmult_le_pos; lra). lra.
    - split; [exact R1|]. unfold avg, avg_abs. unfold X. rewrite !map_length. fold X n. split.
      + eapply Rle_trans; [exact R2|]. right. ring.
      + apply Rmult_le_reg_l with (INR n); [lra|]. replace (INR n * (Rsum (map Rabs X) / INR n)) with (Rsum (map Rabs X)) by (field; lra). exact AB.
  Qed.
  Lemma mean_size : Rabs (val (mean x)) <= 2 ^ 402.
  Proof.
    destruct C94_mean as (_ & H & A). pose proof uro_pos as Hu. pose proof eta_pos as He. pose proof (NU13 n Hn) as NU. destruct U13 as (U & P13). pose proof eta1 as E1. fold n in H.
    assert (N0 : 0 <= INR n) by apply pos_INR. assert (AA : Rabs (avg X) <= avg_abs X).
    { unfold avg, avg_abs. unfold Rdiv. rewrite Rabs_mult. pose proof len_pos as Np. assert (0 < INR (length X)) by (apply lt_0_INR; unfold X; rewrite map_length; exact Np).
      rewrite (Rabs_pos_eq (/ _)) by (left; apply Rinv_0_lt_compat; assumption). apply Rmult_le_compat_r; [left; apply Rinv_0_lt_compat; assumption|apply Rsum_abs_le]. }
    assert (A0 : 0 <= avg_abs X) by (pose proof (Rabs_pos (avg X)); lra).
    assert (2 * (INR n + 1) * uro * avg_abs X <= 1 * avg_abs X) by (apply Rmult_le_compat_r; lra).
    replace (val (mean x)) with ((val (mean x) - avg X) + avg X) by ring. eapply Rle_trans; [apply Rabs_triang|].
    replace (2 ^ 402) with (4 * 2 ^ 400) by (replace 4 with (2 ^ 2) by lra; rewrite <- pow_add; reflexivity).
    assert (P9 : 2 ^ 4 <= 2 ^ 400) by (apply p_mono; lia). simpl (2 ^ 4) in P9. lra.
  Qed.

  (** the standard deviation it divides by *)
  Theorem C94_std : let dm := 2 * (INR (length x) + 1) * uro * avg_abs X + 6 * eta in
    fin (std x) /\ 0 <= val (std x) /\ Rabs (val (std x) - deviation X) <= 2 * (INR (length x) + 5) * uro * deviation X + 2 * dm + / 2 ^ 535.
  Proof.
    pose proof len_pos as Np. destruct C94_mean as (Fm & Bm & _). pose proof mean_size as Sm. fold n in Bm |- *. set (dm := 2 * (INR n + 1) * uro * avg_abs X + 6 * eta) in *. cbv zeta.
    pose proof uro_pos as Hu. pose proof eta_pos as He. pose proof (NU13 n Hn) as NU. destruct U13 as (U & P13). pose proof eta1 as E1. assert (N0 : 0 <= INR n) by apply pos_INR.
    assert (N1 : 1 <= INR n) by (replace 1 with (INR 1) by reflexivity; apply le_INR; lia).
    destruct (dev_list (mean x) x Fm Sm Sx) as (D1 & D2 & D3 & D4). cbv zeta in D3, D4. fold n X in D3, D4.
    set (t := map (fun a => fpown (PrimFloat.abs (PrimFloat.sub a (mean x))) 2) x) in *. set (s0 := Rsum (map (fun a => (a - val (mean x)) ^ 2) X)) in *.
    assert (Lt : length t = n) by apply map_length.
    assert (N40 : INR n <= 2 ^ 40). { rewrite INR_IZR_INZ. replace (2 ^ 40) with (IZR (2 ^ 40)) by (symmetry; exact (pow_IZR 2 40)). apply IZR_le. exact Hn. }
    assert (S846 : s0 <= 2 ^ 846).
    { eapply Rle_trans; [apply D3|]. change 846%nat with (40 + 806)%nat. rewrite pow_add. apply Rmult_le_compat_r; [left; apply pow_lt; lra|exact N40]. }
    set (S := Rsum (map val t)) in *.
    assert (SA : Rsum (map Rabs (map val t)) = S). { unfold S. clear -D2. induction D2 as [|p l Hp _ IH]; [reflexivity|]. cbn [map]. change (Rabs (val p) + Rsum (map Rabs (map val l)) = val p + Rsum (map val l)). rewrite IH, Rabs_pos_eq by exact Hp. reflexivity. }
    assert (S1 : S <= s0 + 4 * uro * s0 + INR n * eta). { pose proof (Rle_abs (S - s0)). lra. }
    assert (NE : INR n * eta <= 1). { apply Rle_trans with (2 ^ 40 * / 2 ^ 1000); [apply Rmult_le_compat; [lra|lra|exact N40|apply eta_small]|]. rewrite pw by leb. rewrite <- Rinv_1. apply Rinv_le_contravar; [lra|apply pow_R1_Rle; lra]. }
    assert (US : 4 * uro * s0 <= 1 * s0) by (apply Rmult_le_compat_r; lra).
    assert (P847 : 2 * 2 ^ 846 + 1 <= 2 ^ 900).
    { assert (1 <= 2 ^ 846) by (apply pow_R1_Rle; lra). apply Rle_trans with (4 * 2 ^ 846); [lra|]. replace 4 with (2 ^ 2) by lra. rewrite <- pow_add. apply p_mono. leb. }
    assert (P900 : 2 ^ 900 <= 2 ^ 990) by (apply p_mono; leb).
    destruct (any_sum t (sum t) (sum_ok t)) as (FD & BD); [rewrite Lt; exact Hn|exact D1|rewrite SA; lra|]. rewrite SA, Lt in BD. fold S in BD.
    assert (S0 : 0 <= S). { unfold S. clear -D2. induction D2 as [|p l Hp _ IH]; [cbn; lra|]. cbn [map]. change (0 <= val p + Rsum (map val l)). lra. }
    destruct (mean_gen n (sum t) s0 s0 5 Np Hn FD) as (Q1 & Q2 & Q3).
    { rewrite Rabs_pos_eq by lra. lra. } { lra. } { lra. }
    { replace (val (sum t) - s0) with ((val (sum t) - S) + (S - s0)) by ring. eapply Rle_trans; [apply Rabs_triang|].
      assert (K1 : uro * S <= uro * s0 + 4 * uro * (uro * s0) + uro * (INR n * eta)) by (apply Rmult_le_compat_l with (r := uro) in S1; lra).
      assert (K2 : 2 * INR n * (uro * S) <= 2 * INR n * (uro * s0 + 4 * uro * (uro * s0) + uro * (INR n * eta))) by (apply Rmult_le_compat_l; lra).
      assert (K3 : 8 * (INR n * uro) * (uro * s0) <= 1 * (uro * s0)) by (apply Rmult_le_compat_r; [apply Rmult_le_pos; lra|lra]).
      assert (K4 : 2 * (INR n * uro) * (INR n * eta) <= 1 * (INR n * eta)) by (apply Rmult_le_compat_r; [apply Rmult_le_pos; lra|lra]).
      lra. }
    set (q := PrimFloat.div (sum t) (f_of_Z (Z.of_nat n))) in *.
    assert (HD : 0 <= val (sum t)).
    { apply (ev_nonneg _ _ (sums_evaluates _ _ (sum_ok t))); [|exact FD]. apply Forall_forall. intros p Hp. apply in_map_iff in Hp as (a & <- & Ha). cbn [fst snd]. rewrite one_val, Rmult_1_r.
      rewrite Forall_forall in D2. apply D2, Ha. }
    specialize (Q3 HD). destruct (sqrt_ok q Q1 Q3) as (F & V).
    assert (Estd : std x = PrimFloat.sqrt q). { change (PrimFloat.sqrt (PrimFloat.div (sum t) (f_of_Z (Z.of_nat (length t)))) = PrimFloat.sqrt q). rewrite Lt. reflexivity. }
    rewrite Estd. split; [exact F|]. split; [rewrite V; apply rnd_nonneg, sqrt_pos|].
    (* the mean square about the float mean, against the deviation *)
    set (VV := s0 / INR n) in *. assert (EV : VV = avg (map (fun a => (a - val (mean x)) ^ 2) X)) by (unfold VV, avg, X; rewrite !map_length; reflexivity).
    assert (XN : X <> []) by (unfold X; destruct x; [contradiction|discriminate]).
    assert (SV : VV = avg (map (fun a => (a - avg X) ^ 2) X) + (val (mean x) - avg X) ^ 2) by (rewrite EV; apply split_var; [reflexivity|exact XN]).
    set (W := avg (map (fun a => (a - avg X) ^ 2) X)) in *. change (deviation X) with (sqrt W).
    assert (HV : 0 <= VV) by (unfold VV; apply Rmult_le_pos; [lra|left; apply Rinv_0_lt_compat; lra]).
    assert (HW : 0 <= W).
    { unfold W, avg. apply Rmult_le_pos; [|left; apply Rinv_0_lt_compat; unfold X; rewrite !map_length; fold n; lra]. clear. generalize (Rsum X / INR (length X)). intros c. clear. induction X as [|a l IH]; [cbn; lra|].
      cbn [map]. change (0 <= (a - c) ^ 2 + Rsum (map (fun a => (a - c) ^ 2) l)). pose proof (pow2_ge_0 (a - c)). lra. }
    set (g := val (mean x) - avg X) in *. pose proof (pow2_ge_0 g) as G0.
    assert (LO : sqrt W <= sqrt VV) by (apply sqrt_le_1_alt; lra).
    assert (HI : sqrt VV <= sqrt W + Rabs g).
    { pose proof (sqrt_pos W) as PW. pose proof (Rabs_pos g) as Pg. apply Rsqr_incr_0; [|apply sqrt_pos|lra]. unfold Rsqr. rewrite sqrt_sqrt by exact HV.
      replace ((sqrt W + Rabs g) * (sqrt W + Rabs g)) with (sqrt W * sqrt W + 2 * (sqrt W * Rabs g) + Rabs g * Rabs g) by ring. rewrite sqrt_sqrt by exact HW.
      replace (Rabs g * Rabs g) with (g ^ 2) by (rewrite <- Rabs_mult, Rabs_pos_eq; [ring|apply Rle_0_sqr]). assert (0 <= sqrt W * Rabs g) by (apply Rmult_le_pos; assumption). lra. }
    assert (AL : 0 <= (2 * INR n + 5 + 2) * uro <= 1) by (split; [apply Rmult_le_pos; lra|lra]).
    pose proof (sqrt_close (val q) VV ((2 * INR n + 5 + 2) * uro) (6 * eta) Q3 HV AL ltac:(lra) Q2) as C.
    assert (SE : sqrt (6 * eta) <= / 2 ^ 536).
    { rewrite <- (sqrt_square (/ 2 ^ 536)) by (left; apply Rinv_0_lt_compat, pow_lt; lra). apply sqrt_le_1_alt. rewrite <- Rinv_mult, <- pow_add. change (536 + 536)%nat with 1072%nat.
      unfold eta. replace (2 ^ 1075) with (8 * 2 ^ 1072) by (replace 8 with (2 ^ 3) by lra; rewrite <- pow_add; reflexivity).
      assert (0 < / 2 ^ 1072) by (apply Rinv_0_lt_compat, pow_lt; lra). rewrite Rinv_mult. lra. }
    assert (E536 : / 2 ^ 535 = 2 * / 2 ^ 536). { replace (2 ^ 536) with (2 * 2 ^ 535) by (change 536%nat with (Datatypes.S 535); reflexivity). field; try (apply pow_nonzero; lra). }
    assert (EE : eta <= / 4 * / 2 ^ 536). { unfold eta. replace (2 ^ 1075) with (2 ^ 539 * 2 ^ 536) by (rewrite <- pow_add; reflexivity). rewrite Rinv_mult. apply Rmult_le_compat_r; [left; apply Rinv_0_lt_compat, pow_lt; lra|].
      replace (/ 4) with (/ 2 ^ 2) by lra. apply pw_le. leb. }
    assert (P536 : 0 < / 2 ^ 536) by (apply Rinv_0_lt_compat, pow_lt; lra).
    set (s := sqrt (val q)) in *. set (v := sqrt VV) in *. set (w := sqrt W) in *. assert (Pv : 0 <= v) by apply sqrt_pos. assert (Pw : 0 <= w) by apply sqrt_pos.
    assert (Ss : Rabs s <= 2 * v + / 2 ^ 536).
    { replace s with ((s - v) + v) by ring. eapply Rle_trans; [apply Rabs_triang|]. rewrite (Rabs_pos_eq v Pv). assert ((2 * INR n + 5 + 2) * uro * v <= 1 * v) by (apply Rmult_le_compat_r; lra). lra. }
    destruct (rnd_mul s) as (d & h & Hd & Hh & ER). rewrite V. fold s. rewrite ER.
    replace (s * (1 + d) + h - w) with ((s - v) + (d * s + h) + (v - w)) by ring.
    eapply Rle_trans; [apply Rabs_triang|]. rewrite (Rabs_pos_eq (v - w)) by lra. pose proof (Rabs_triang (s - v) (d * s + h)) as T.
    assert (Rabs (d * s + h) <= uro * (2 * v + / 2 ^ 536) + eta).
    { eapply Rle_trans; [apply Rabs_triang|]. rewrite Rabs_mult. apply Rplus_le_compat; [|exact Hh]. apply Rmult_le_compat; try apply Rabs_pos; assumption. }
    assert (uro * / 2 ^ 536 <= / 4 * / 2 ^ 536) by (apply Rmult_le_compat_r; lra).
    assert (L1 : (2 * INR n + 9) * uro * v <= (2 * INR n + 9) * uro * (w + dm)) by (apply Rmult_le_compat_l; [apply Rmult_le_pos; lra|lra]).
    assert (Dm0 : 0 <= dm) by (pose proof (Rabs_pos g); lra).
    assert (L2 : (2 * INR n + 9) * uro * dm <= 1 * dm) by (apply Rmult_le_compat_r; lra).
    assert (L3 : 0 <= uro * w) by (apply Rmult_le_pos; lra). lra.
  Qed.
  End Default.

  (** given an offset and a scale: standardize is accurate to a few rounding errors *)
  Theorem C94_standardize : forall x o s i, sane x -> sane [o] -> fin s -> / 2 ^ 400 <= Rabs (val s) <= 2 ^ 400 -> (i < length x)%nat ->
    let xi := val (nth i x PrimFloat.zero) in let z := nth i (standardize x (Some o) (Some s)) PrimFloat.zero in
    fin z /\ Rabs (val z - (xi - val o) / val s) <= 3 * uro * Rabs ((xi - val o) / val s) + eta.
  Proof.
    intros x o s i Sx So Fs Hs Hi. cbv zeta. destruct (Forall_inv So) as (Fo & Ho).
    assert (Ex : fin (nth i x PrimFloat.zero) /\ Rabs (val (nth i x PrimFloat.zero)) <= 2 ^ 400) by (unfold sane in Sx; rewrite Forall_forall in Sx; apply Sx, nth_In; exact Hi). destruct Ex as (Fx & Hx).
    set (a := nth i x PrimFloat.zero) in *.
    assert (Ez : nth i (standardize x (Some o) (Some s)) PrimFloat.zero = PrimFloat.div (PrimFloat.sub a o) s).
    { unfold standardize. change (nth i (map (fun a => PrimFloat.div (PrimFloat.sub a o) s) x) PrimFloat.zero = PrimFloat.div (PrimFloat.sub a o) s).
      rewrite (nth_indep (map (fun a => PrimFloat.div (PrimFloat.sub a o) s) x) PrimFloat.zero (PrimFloat.div (PrimFloat.sub PrimFloat.zero o) s)) by (rewrite map_length; exact Hi).
      rewrite (map_nth (fun a => PrimFloat.div (PrimFloat.sub a o) s)). reflexivity. }
    rewrite Ez. destruct (diff_err a o Fx Fo Hx Ho) as (F1 & B1 & B0 & d & Hd & E1). set (y := PrimFloat.sub a o) in *.
    pose proof uro_pos as Hu. destruct U13 as (U & P13). assert (Ps : 0 < / 2 ^ 400) by (apply Rinv_0_lt_compat, pow_lt; lra).
    assert (Ns : val s <> 0) by (intros Z; rewrite Z, Rabs_R0 in Hs; lra).
    assert (IS : / Rabs (val s) <= 2 ^ 400). { rewrite <- (Rinv_inv (2 ^ 400)). apply Rinv_le_contravar; [exact Ps|apply Hs]. }
    assert (F2 : fin (PrimFloat.div y s)).
    { apply div_ok; auto. unfold Rdiv, cap. rewrite Rabs_mult, Rabs_inv. apply Rle_trans with (2 ^ 402 * 2 ^ 400).
      - apply Rmult_le_compat; [apply Rabs_pos|left; apply Rinv_0_lt_compat; lra|exact B1|exact IS].
      - rewrite <- pow_add. apply p_mono. leb. }
    split; [exact F2|]. destruct (div_err y s F2 Fs Ns) as (d2 & h & Hd2 & Hh & E2). rewrite E2, E1. set (t := (val a - val o) / val s).
    replace ((val a - val o) * (1 + d) / val s * (1 + d2) + h - t) with ((d + d2 + d * d2) * t + h) by (unfold t; field; exact Ns).
    eapply Rle_trans; [apply Rabs_triang|]. apply Rplus_le_compat; [|exact Hh]. rewrite Rabs_mult. apply Rmult_le_compat_r; [apply Rabs_pos|].
    eapply Rle_trans; [apply Rabs_triang|]. rewrite Rabs_mult. pose proof (Rabs_triang d d2). assert (Rabs d * Rabs d2 <= / 100 * uro) by (apply Rmult_le_compat; try apply Rabs_pos; lra). lra.
  Qed.

  (** there and back *)
  Theorem C94_round_trip : forall x o s i, sane x -> sane [o] -> fin s -> / 2 ^ 400 <= Rabs (val s) <= 2 ^ 400 -> (i < length x)%nat ->
    let xi := val (nth i x PrimFloat.zero) in let b := nth i (standardize_back (standardize x (Some o) (Some s)) o s) PrimFloat.zero in
    fin b /\ Rabs (val b - xi) <= uro * Rabs xi + 5 * uro * Rabs (xi - val o) + 3 * eta * (Rabs (val s) + 1).
  Proof.
    intros x o s i Sx So Fs Hs Hi. cbv zeta. destruct (Forall_inv So) as (Fo & Ho). destruct (C94_standardize x o s i Sx So Fs Hs Hi) as (F1 & B1). cbv zeta in F1, B1.
    assert (Ex : fin (nth i x PrimFloat.zero) /\ Rabs (val (nth i x PrimFloat.zero)) <= 2 ^ 400) by (unfold sane in Sx; rewrite Forall_forall in Sx; apply Sx, nth_In; exact Hi). destruct Ex as (Fx & Hx).
    assert (Ls : length (standardize x (Some o) (Some s)) = length x) by apply map_length.
    set (xs := standardize x (Some o) (Some s)) in *. set (a := nth i x PrimFloat.zero) in *. set (z := nth i xs PrimFloat.zero) in *.
    assert (Eb : nth i (standardize_back xs o s) PrimFloat.zero = PrimFloat.add (PrimFloat.mul z s) o).
    { unfold standardize_back. change (nth i (map (fun a => PrimFloat.add (PrimFloat.mul a s) o) xs) PrimFloat.zero = PrimFloat.add (PrimFloat.mul z s) o).
      rewrite (nth_indep (map (fun a => PrimFloat.add (PrimFloat.mul a s) o) xs) PrimFloat.zero (PrimFloat.add (PrimFloat.mul PrimFloat.zero s) o)) by (rewrite map_length, Ls; exact Hi).
      rewrite (map_nth (fun a => PrimFloat.add (PrimFloat.mul a s) o)). reflexivity. }
    rewrite Eb. pose proof uro_pos as Hu. pose proof eta_pos as He. destruct U13 as (U & P13). pose proof eta1 as E1. assert (Ps : 0 < / 2 ^ 400) by (apply Rinv_0_lt_compat, pow_lt; lra).
    assert (Ns : val s <> 0) by (intros Z; rewrite Z, Rabs_R0 in Hs; lra). set (t := val a - val o) in *. set (S := Rabs (val s)) in *.
    assert (Pt : 0 <= Rabs t) by apply Rabs_pos.
    (* z s against t *)
    assert (ZS : Rabs (val z * val s - t) <= 3 * uro * Rabs t + eta * S).
    { replace (val z * val s - t) with ((val z - t / val s) * val s) by (field; exact Ns). rewrite Rabs_mult. fold S.
      apply Rle_trans with ((3 * uro * Rabs (t / val s) + eta) * S); [apply Rmult_le_compat_r; [apply Rabs_pos|exact B1]|].
      replace (Rabs (t / val s)) with (Rabs t / S) by (unfold Rdiv, S; rewrite Rabs_mult, Rabs_inv; reflexivity).
      right. field. unfold S. apply Rabs_no_R0. exact Ns. }
    assert (Ht : Rabs t <= 2 ^ 401). { unfold t. eapply Rle_trans; [apply Rabs_triang|rewrite Rabs_Ropp]. replace (2 ^ 401) with (2 * 2 ^ 400) by (change 401%nat with (Datatypes.S 400); reflexivity). lra. }
    assert (P401 : 1 <= 2 ^ 400) by (apply pow_R1_Rle; lra). assert (E401 : 2 ^ 401 = 2 * 2 ^ 400) by (change 401%nat with (Datatypes.S 400); reflexivity).
    assert (ES : eta * S <= 2 ^ 400). { apply Rle_trans with (1 * S); [apply Rmult_le_compat_r; [apply Rabs_pos|exact E1]|lra]. }
    assert (U3 : 3 * uro * Rabs t <= 1 * Rabs t) by (apply Rmult_le_compat_r; lra).
    assert (ZB : Rabs (val z * val s) <= 2 ^ 404).
    { replace (val z * val s) with ((val z * val s - t) + t) by ring. eapply Rle_trans; [apply Rabs_triang|]. replace (2 ^ 404) with (16 * 2 ^ 400) by (replace 16 with (2 ^ 4) by lra; rewrite <- pow_add; reflexivity). lra. }
    assert (F2 : fin (PrimFloat.mul z s)) by (apply mul_ok; auto; unfold cap; apply Rle_trans with (2 ^ 404); [exact ZB|apply p_mono; leb]).
    destruct (mul_err _ _ F2) as (d & h & Hd & Hh & E2). set (y := PrimFloat.mul z s) in *.
    assert (YB : Rabs (val y - t) <= 9 / 2 * uro * Rabs t + 2 * eta * (S + 1)).
    { rewrite E2. replace (val z * val s * (1 + d) + h - t) with ((val z * val s - t) + (d * (val z * val s) + h)) by ring. eapply Rle_trans; [apply Rabs_triang|].
      assert (Rabs (d * (val z * val s) + h) <= uro * (Rabs t + (3 * uro * Rabs t + eta * S)) + eta).
      { eapply Rle_trans; [apply Rabs_triang|]. apply Rplus_le_compat; [|exact Hh]. rewrite Rabs_mult. apply Rmult_le_compat; try apply Rabs_pos; [exact Hd|].
        replace (val z * val s) with (t + (val z * val s - t)) by ring. eapply Rle_trans; [apply Rabs_triang|]. lra. }
      assert (uro * (3 * uro * Rabs t) <= uro * (/ 2 * Rabs t)) by (apply Rmult_le_compat_l; [lra|]; apply Rmult_le_compat_r; lra).
      assert (uro * (eta * S) <= / 2 * (eta * S)) by (apply Rmult_le_compat_r; [apply Rmult_le_pos; [lra|apply Rabs_pos]|lra]).
      assert (0 <= eta * S) by (apply Rmult_le_pos; [lra|apply Rabs_pos]).
      assert (uro * (3 * uro * Rabs t) <= / 10 * (uro * Rabs t)).
      { replace (uro * (3 * uro * Rabs t)) with (3 * uro * (uro * Rabs t)) by ring. apply Rmult_le_compat_r; [apply Rmult_le_pos; lra|lra]. }
      assert (0 <= uro * Rabs t) by (apply Rmult_le_pos; lra). lra. }
    assert (YS : Rabs (val y) <= 2 ^ 404 + 2 ^ 404).
    { rewrite E2. eapply Rle_trans; [apply Rabs_triang|]. rewrite Rabs_mult. assert (Rabs (1 + d) <= 1 + uro) by (eapply Rle_trans; [apply Rabs_triang|rewrite Rabs_R1; lra]).
      assert (Rabs (val z * val s) * Rabs (1 + d) <= 2 ^ 404 * (1 + uro)) by (apply Rmult_le_compat; try apply Rabs_pos; assumption).
      assert (1 <= 2 ^ 404) by (apply pow_R1_Rle; lra). assert (2 ^ 404 * uro <= 2 ^ 404 * / 100) by (apply Rmult_le_compat_l; lra).
      assert (Rabs h <= / 2). { eapply Rle_trans; [exact Hh|]. eapply Rle_trans; [apply eta_small|]. replace (/ 2) with (/ 2 ^ 1) by lra. apply pw_le. leb. } lra. }
    assert (F3 : fin (PrimFloat.add y o)).
    { apply add_ok; auto. unfold cap. apply Rle_trans with (4 * 2 ^ 404); [pose proof (p_mono 400 404 ltac:(lia)); lra|]. replace 4 with (2 ^ 2) by lra. rewrite <- pow_add. apply p_mono. leb. }
    split; [exact F3|]. destruct (add_err y o F3) as (d4 & Hd4 & ->). set (Y := val y - t) in *.
    replace ((val y + val o) * (1 + d4) - val a) with (Y * (1 + d4) + d4 * val a) by (unfold Y, t; ring).
    eapply Rle_trans; [apply Rabs_triang|]. rewrite !Rabs_mult.
    assert (Rabs (1 + d4) <= 1 + uro) by (eapply Rle_trans; [apply Rabs_triang|rewrite Rabs_R1; lra]).
    assert (A1 : Rabs Y * Rabs (1 + d4) <= (9 / 2 * uro * Rabs t + 2 * eta * (S + 1)) * (1 + uro)) by (apply Rmult_le_compat; try apply Rabs_pos; assumption).
    assert (A2 : Rabs d4 * Rabs (val a) <= uro * Rabs (val a)) by (apply Rmult_le_compat_r; [apply Rabs_pos|exact Hd4]).
    assert (S0 : 0 <= S) by apply Rabs_pos.
    assert (A3 : (9 / 2 * uro * Rabs t + 2 * eta * (S + 1)) * uro <= (9 / 2 * uro * Rabs t + 2 * eta * (S + 1)) * / 100).
    { apply Rmult_le_compat_l; [|lra]. assert (0 <= 9 / 2 * uro * Rabs t) by (apply Rmult_le_pos; lra). assert (0 <= 2 * eta * (S + 1)) by (apply Rmult_le_pos; lra). lra. }
    assert (0 <= uro * Rabs t) by (apply Rmult_le_pos; lra). assert (0 <= eta * (S + 1)) by (apply Rmult_le_pos; lra). lra.
  Qed.

  (** the default offset and scale: standardize uses numbers close to the mean and the standard deviation *)
  Theorem C94_default : forall x, sane x -> x <> [] -> (Z.of_nat (length x) <= 2 ^ 40)%Z ->
    let X := map val x in let dm := 2 * (INR (length x) + 1) * uro * avg_abs X + 6 * eta in
    exists o s, standardize x None None = standardize x (Some o) (Some s) /\ fin o /\ fin s /\ 0 <= val s /\
      Rabs (val o - avg X) <= dm /\ Rabs (val s - deviation X) <= 2 * (INR (length x) + 5) * uro * deviation X + 2 * dm + / 2 ^ 535.
  Proof.
    intros x Sx Nx Hn X dm. exists (mean x), (std x). split; [reflexivity|]. destruct (C94_mean x Nx Hn Sx) as (F1 & B1 & _). destruct (C94_std x Nx Hn Sx) as (F2 & P2 & B2).
    cbv zeta in B2. fold X dm in B1, B2. auto 8.
  Qed.
End C94.

Example C94_hypotheses : (forall l, sums l (plain_sum l)) /\ sane [PrimFloat.one; tenth; PrimFloat.two] /\ sane [tenth] /\ fin PrimFloat.two /\
  / 2 ^ 400 <= Rabs (val PrimFloat.two) <= 2 ^ 400 /\ (Z.of_nat 3 <= 2 ^ 40)%Z /\ deviation (map val [PrimFloat.zero; PrimFloat.two]) = 1 /\
  exists z, @standardize _ round_num [PrimFloat.one; tenth; PrimFloat.two] (Some tenth) (Some PrimFloat.two) = z /\ val (nth 0 z PrimFloat.zero) <> 0.
Proof.
  split; [intros l; exact (fold_sums l _ _ [] sum_zero eq_refl)|].
  assert (P400 : 1 * 2 <= 2 ^ 400) by (apply Rle_trans with (2 ^ 1); [lra|apply Rle_pow; [lra|leb]]).
  assert (B : forall a, finb a = true -> (Qle_bool (Qminus 0 2) (valQ a) && Qle_bool (valQ a) 2 = true)%bool -> fin a /\ Rabs (val a) <= 2 ^ 400).
  { intros a H1 H2. split; [apply finb_ok; exact H1|]. rewrite val_Q. apply andb_prop in H2 as (H2 & H3). apply Qle_bool_iff in H2, H3. apply Qle_Rle in H2, H3.
    assert (Q2R 2 = 2) by (unfold Q2R; cbn; lra). assert (Q2R (0 - 2) = -2) by (unfold Q2R; cbn; lra). apply Rabs_le. lra. }
  assert (V2 : val PrimFloat.two = 2). { rewrite val_Q. assert (E : Qeq (valQ PrimFloat.two) 2) by (vm_compute; reflexivity). rewrite (Qeq_eqR _ _ E). unfold Q2R. cbn. lra. }
  assert (V0 : val PrimFloat.zero = 0). { rewrite val_Q. assert (E : Qeq (valQ PrimFloat.zero) 0) by (vm_compute; reflexivity). rewrite (Qeq_eqR _ _ E). unfold Q2R. cbn. lra. }
  split; [repeat (constructor; [apply B; vm_compute; reflexivity|]); constructor|].
  split; [repeat (constructor; [apply B; vm_compute; reflexivity|]); constructor|]. split; [apply finb_ok; vm_compute; reflexivity|]. split.
  { rewrite V2, Rabs_pos_eq by lra. split; [|lra]. apply Rle_trans with (/ 1); [|lra]. apply Rinv_le_contravar; [lra|lra]. }
  split; [vm_compute; discriminate|]. split.
  { unfold deviation, avg. cbn [map length Rsum]. rewrite V2, V0. cbn [INR Rsum fold_right]. match goal with |- sqrt ?a = _ => replace a with 1 end; [apply sqrt_1|]. 
    unfold Rsum. cbn. field. }
  eexists. split; [reflexivity|]. rewrite val_Q. intros H.
  assert (H0 : Q2R 0 = 0) by (unfold Q2R; cbn; lra). rewrite <- H0 in H. apply eqR_Qeq in H. revert H. vm_compute. discriminate.
Qed.
(** a constant series: the rounded mean misses the common value, the rounded deviation is that same miss, and the outcome is -1 everywhere *)
Example C94_constant : let c := tenth in
  @standardize _ round_num [c; c; c] None None = [PrimFloat.opp PrimFloat.one; PrimFloat.opp PrimFloat.one; PrimFloat.opp PrimFloat.one].
Proof. vm_compute. reflexivity. Qed.
