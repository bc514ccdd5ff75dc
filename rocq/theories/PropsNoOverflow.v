(** C89: LMS and NLMS on IEEE binary64 with data of sane size never overflow and never produce a nan, and their distance from
    exact arithmetic has an explicit bound.  This discharges the finiteness hypotheses of C79. *)
From Coq Require Import ZArith QArith Qreals Reals Lra Psatz Permutation Uint63 FloatOps FloatAxioms SpecFloat.
From Coq Require PrimFloat.
From Flocq Require Import Core BinarySingleNaN Plus_error.
From Flocq Require IEEE754.PrimFloat.
From Verif Require Import Py Num NumF Numpy Filters Registry Spec StructProofs RunProofs Reach RMat RVec RFilter PropsStability PropsTracking FloatErr PropsRound PropsRoundRun.
Open Scope R_scope.
#[local] Existing Instance Flocq.IEEE754.PrimFloat.Hprec.
#[local] Existing Instance Flocq.IEEE754.PrimFloat.Hmax.
#[local] Notation sqrt := R_sqrt.sqrt.
#[local] Notation bin := Flocq.IEEE754.PrimFloat.Prim2B.

(** ** Operations that do not overflow *)
Definition cap : R := 2 ^ 1000.
Lemma cap_bpow : cap = bpow radix2 1000.
Proof. unfold cap. change 1000%Z with (Z.of_nat 1000). rewrite bpow_powerRZ, <- pow_powerRZ. reflexivity. Qed.
Lemma rnd_small z : Rabs z <= cap -> Rlt_bool (Rabs (rnd z)) (bpow radix2 FloatOps.emax) = true.
Proof.
  intros H. apply Rlt_bool_true. apply Rle_lt_trans with (bpow radix2 1000); [|apply bpow_lt; reflexivity].
  apply abs_round_le_generic; [apply FLT_exp_valid; reflexivity|apply valid_rnd_round_mode| |rewrite <- cap_bpow; exact H].
  apply generic_format_bpow. vm_compute. discriminate.
Qed.
Lemma add_ok a b : fin a -> fin b -> Rabs (val a) + Rabs (val b) <= cap -> fin (PrimFloat.add a b).
Proof.
  intros Fa Fb H. rewrite fin_B in *. rewrite !val_B in H. rewrite Flocq.IEEE754.PrimFloat.add_equiv.
  pose proof (Bplus_correct FloatOps.prec FloatOps.emax Flocq.IEEE754.PrimFloat.Hprec Flocq.IEEE754.PrimFloat.Hmax mode_NE _ _ Fa Fb) as C.
  rewrite rnd_small in C; [apply C|]. eapply Rle_trans; [apply Rabs_triang|exact H].
Qed.
Lemma sub_ok a b : fin a -> fin b -> Rabs (val a) + Rabs (val b) <= cap -> fin (PrimFloat.sub a b).
Proof.
  intros Fa Fb H. rewrite fin_B in *. rewrite !val_B in H. rewrite Flocq.IEEE754.PrimFloat.sub_equiv.
  pose proof (Bminus_correct FloatOps.prec FloatOps.emax Flocq.IEEE754.PrimFloat.Hprec Flocq.IEEE754.PrimFloat.Hmax mode_NE _ _ Fa Fb) as C.
  rewrite rnd_small in C; [apply C|]. eapply Rle_trans; [apply Rabs_triang|rewrite Rabs_Ropp; exact H].
Qed.
Lemma mul_ok a b : fin a -> fin b -> Rabs (val a * val b) <= cap -> fin (PrimFloat.mul a b).
Proof.
  intros Fa Fb H. rewrite fin_B in *. rewrite !val_B in H. rewrite Flocq.IEEE754.PrimFloat.mul_equiv.
  pose proof (Bmult_correct FloatOps.prec FloatOps.emax Flocq.IEEE754.PrimFloat.Hprec Flocq.IEEE754.PrimFloat.Hmax mode_NE (bin a) (bin b)) as C.
  rewrite rnd_small in C by exact H. destruct C as (_ & C & _). rewrite C, Fa, Fb. reflexivity.
Qed.
Lemma div_ok a b : fin a -> fin b -> val b <> 0 -> Rabs (val a / val b) <= cap -> fin (PrimFloat.div a b).
Proof.
  intros Fa Fb H0 H. rewrite fin_B in *. rewrite !val_B in *. rewrite Flocq.IEEE754.PrimFloat.div_equiv.
  pose proof (Bdiv_correct FloatOps.prec FloatOps.emax Flocq.IEEE754.PrimFloat.Hprec Flocq.IEEE754.PrimFloat.Hmax mode_NE (bin a) (bin b) H0) as C.
  rewrite rnd_small in C by exact H. destruct C as (_ & C & _). rewrite C, Fa. reflexivity.
Qed.
Lemma fma_ok a b r s : fused a b r s -> fin a -> fin b -> fin r -> Rabs (val a * val b) + Rabs (val r) <= cap -> fin s.
Proof.
  intros E Fa Fb Fr H. unfold fused in E. rewrite fin_B in *. rewrite !val_B in H. rewrite E.
  pose proof (Bfma_correct FloatOps.prec FloatOps.emax Flocq.IEEE754.PrimFloat.Hprec Flocq.IEEE754.PrimFloat.Hmax mode_NE _ _ _ Fa Fb Fr) as C.
  cbv zeta in C. rewrite rnd_small in C; [apply C|]. eapply Rle_trans; [apply Rabs_triang|exact H].
Qed.

Lemma eta_small : eta <= / 2 ^ 1000.
Proof. unfold eta. apply Rinv_le_contravar; [apply pow_lt; lra|]. apply Rle_pow; [lra|]. apply Nat.leb_le. vm_compute. reflexivity. Qed.
Lemma uro_small : uro <= / 2 ^ 50.
Proof. unfold uro. apply Rinv_le_contravar; [apply pow_lt; lra|]. apply Rle_pow; [lra|lia]. Qed.

(** the size of an inner product computed in any order *)
Lemma slack_simple n a : (Z.of_nat n <= 2 ^ 50)%Z -> 0 <= a -> dot_slack n a <= a / 4 + / 2.
Proof.
  intros H Ha. eapply Rle_trans; [apply dot_slack_small; assumption|].
  assert (Hn : INR n <= 2 ^ 50).
  { rewrite INR_IZR_INZ. replace (2 ^ 50) with (IZR (2 ^ 50)) by (symmetry; exact (pow_IZR 2 50)). apply IZR_le, H. }
  pose proof (pos_INR n) as Hn0. pose proof uro_pos. pose proof eta_pos.
  assert (A1 : INR n * uro <= / 8). { apply Rle_trans with (2 ^ 50 * uro); [apply Rmult_le_compat_r; lra|]. unfold uro. right. field. }
  assert (A2 : INR n * eta <= / 4).
  { apply Rle_trans with (2 ^ 50 * / 2 ^ 1000).
    - apply Rmult_le_compat; try lra. apply eta_small.
    - replace (/ 2 ^ 1000) with (/ 2 ^ 50 * / 2 ^ 950) by (rewrite <- Rinv_mult, <- pow_add; reflexivity).
      rewrite <- Rmult_assoc, Rinv_r, Rmult_1_l by (apply pow_nonzero; lra). apply Rinv_le_contravar; [lra|]. apply Rle_trans with (2 ^ 2); [lra|].
      apply Rle_pow; [lra|]. apply Nat.leb_le. vm_compute. reflexivity. }
  assert (INR n * uro * a <= / 8 * a) by (apply Rmult_le_compat_r; lra). lra.
Qed.
Lemma size_bound l r : evaluates l r -> fin r -> (Z.of_nat (length l) <= 2 ^ 50)%Z -> Rabs (val r) <= 2 * prod_abs l + 1.
Proof.
  intros H F HL. destruct (evaluates_err l r H F) as (_ & B). pose proof (prod_abs_nonneg l) as P. pose proof (prod_sum_le l) as Q.
  pose proof (slack_simple (length l) (prod_abs l) HL P) as S.
  replace (val r) with ((val r - prod_sum l) + prod_sum l) by ring. eapply Rle_trans; [apply Rabs_triang|]. lra.
Qed.
Lemma evaluates_fin l r : evaluates l r -> (forall p, In p l -> fin (fst p) /\ fin (snd p)) -> (Z.of_nat (length l) <= 2 ^ 50)%Z ->
  prod_abs l <= 2 ^ 990 -> fin r.
Proof.
  assert (C : 4 * 2 ^ 990 + 2 <= cap).
  { unfold cap. replace (2 ^ 1000) with (2 ^ 10 * 2 ^ 990) by (rewrite <- pow_add; reflexivity). assert (1 <= 2 ^ 990) by (apply pow_R1_Rle; lra). lra. }
  induction 1 as [|a b|l1 l2 r1 r2 H1 IH1 H2 IH2|a b l r s H IH Hf|l l' r HP H IH]; intros HF HL HB.
  - exact I.
  - destruct (HF (a, b) (or_introl eq_refl)) as (Fa & Fb). apply mul_ok; auto. cbn in HB. lra.
  - rewrite prod_abs_app in HB. pose proof (prod_abs_nonneg l1). pose proof (prod_abs_nonneg l2). rewrite app_length in HL.
    assert (F1 : fin r1) by (apply IH1; [intros p Hp; apply HF, in_or_app; auto|lia|lra]).
    assert (F2 : fin r2) by (apply IH2; [intros p Hp; apply HF, in_or_app; auto|lia|lra]).
    apply add_ok; auto. pose proof (size_bound l1 r1 H1 F1 ltac:(lia)). pose proof (size_bound l2 r2 H2 F2 ltac:(lia)). lra.
  - change (prod_abs ((a, b) :: l)) with (Rabs (val a * val b) + prod_abs l) in HB. cbn [length] in HL.
    pose proof (prod_abs_nonneg l). pose proof (Rabs_pos (val a * val b)).
    destruct (HF (a, b) (or_introl eq_refl)) as (Fa & Fb). assert (Fr : fin r) by (apply IH; [intros p Hp; apply HF; right; exact Hp|lia|lra]).
    apply (fma_ok a b r s Hf); auto. pose proof (size_bound l r H Fr ltac:(lia)). lra.
  - rewrite <- (prod_abs_perm l l' HP) in HB. apply IH; [|rewrite (Permutation_length HP); exact HL|exact HB].
    intros p Hp. apply HF. eapply Permutation_in; eauto.
Qed.

(** ** The size of the rounding slack of one step: real arithmetic only *)
Lemma pw a b : (a <= b)%nat -> 2 ^ a * / 2 ^ b = / 2 ^ (b - a).
Proof.
  intros H. replace b with (a + (b - a))%nat at 1 by lia. rewrite pow_add, Rinv_mult, <- Rmult_assoc, Rinv_r, Rmult_1_l; [reflexivity|apply pow_nonzero; lra].
Qed.
Lemma pw_le a b : (b <= a)%nat -> / 2 ^ a <= / 2 ^ b.
Proof. intros H. apply Rinv_le_contravar; [apply pow_lt; lra|]. apply Rle_pow; [lra|exact H]. Qed.
Lemma mul3 a b c A B C : 0 <= a <= A -> 0 <= b <= B -> 0 <= c <= C -> a * b * c <= A * B * C.
Proof. intros H1 H2 H3. apply Rmult_le_compat; try lra; [apply Rmult_le_pos; lra|apply Rmult_le_compat; lra]. Qed.
Ltac leb := apply Nat.leb_le; vm_compute; reflexivity.

Lemma tiny_terms (nn g xi Z : R) : 0 <= nn <= 2 ^ 40 -> 0 <= g <= 2 ^ 110 -> 0 <= xi <= 2 ^ 100 -> 0 <= Z <= 2 ^ 502 ->
  6 * (uro * (eta * xi * Z)) + 2 * (eta * xi * Z) + 2 * (nn * (g * xi) * eta) + nn * (eta * (4 * Z + 1)) <= uro.
Proof.
  intros Hn Hg Hx HZ. pose proof uro_pos as Hu. pose proof eta_pos as He. pose proof eta_small as Hs. pose proof uro_small as Hus.
  assert (T1 : eta * xi * Z <= / 2 ^ 398).
  { eapply Rle_trans; [apply (mul3 eta xi Z (/ 2 ^ 1000) (2 ^ 100) (2 ^ 502)); lra|].
    rewrite (Rmult_comm (/ 2 ^ 1000)), pw by leb. rewrite Rmult_comm, pw by leb. apply pw_le. leb. }
  assert (T2 : nn * (g * xi) * eta <= / 2 ^ 398).
  { eapply Rle_trans; [apply (mul3 nn (g * xi) eta (2 ^ 40) (2 ^ 110 * 2 ^ 100) (/ 2 ^ 1000)); try lra; split; [apply Rmult_le_pos; lra|apply Rmult_le_compat; lra]|].
    rewrite <- !pow_add, pw by leb. apply pw_le. leb. }
  assert (T3 : nn * (eta * (4 * Z + 1)) <= / 2 ^ 398).
  { assert (Z1 : 4 * Z + 1 <= 2 ^ 505). { replace (2 ^ 505) with (8 * 2 ^ 502) by (replace 8 with (2 ^ 3) by lra; rewrite <- pow_add; reflexivity).
      assert (1 <= 2 ^ 502) by (apply pow_R1_Rle; lra). lra. }
    rewrite <- Rmult_assoc. eapply Rle_trans; [apply (mul3 nn eta (4 * Z + 1) (2 ^ 40) (/ 2 ^ 1000) (2 ^ 505)); lra|].
    rewrite pw by leb. rewrite Rmult_comm, pw by leb. apply pw_le. leb. }
  assert (P : 0 <= eta * xi * Z) by (repeat apply Rmult_le_pos; lra).
  assert (U1 : uro <= 1) by (eapply Rle_trans; [exact Hus|]; rewrite <- Rinv_1; apply Rinv_le_contravar; [lra|apply pow_R1_Rle; lra]).
  assert (T4 : uro * (eta * xi * Z) <= 1 * (eta * xi * Z)) by (apply Rmult_le_compat_r; lra).
  assert (T5 : 11 * / 2 ^ 398 <= uro).
  { unfold uro. apply Rle_trans with (2 ^ 4 * / 2 ^ 398); [apply Rmult_le_compat_r; [left; apply Rinv_0_lt_compat, pow_lt; lra|lra]|].
    rewrite pw by leb. apply pw_le. leb. }
  lra.
Qed.

Lemma slack_num (nn W xi D g q rho DY E ds Wp SL : R) :
  0 <= nn <= 2 ^ 40 -> 0 <= g <= 2 ^ 110 -> 0 <= xi <= 2 ^ 100 -> 0 <= W <= 2 ^ 400 -> 0 <= D <= 2 ^ 100 ->
  0 <= q <= 16 * (nn + 1) * uro -> q <= 1 -> 0 <= rho <= g * q + eta -> g * (xi * xi) <= 2 ->
  let Z := D + 1 + 2 * (W * xi) in
  0 <= E <= 2 * Z -> 0 <= DY <= Z -> 0 <= ds <= 2 * nn * (uro * (W * xi) + eta) ->
  SL <= uro * Wp + xi * (3 * uro * (g + rho) * E + rho * E + g * (uro * DY + ds)) + nn * (eta * (2 * E + 1)) ->
  Wp <= W + g * xi * (D + 1) + SL -> 0 <= SL ->
  SL <= 256 * (nn + 1) * uro * (W + g * xi * (D + 1) + 1).
Proof.
  intros Hn Hg Hx HW HD Hq Hq1 Hr Hg2 Z HE HY Hds HSL HWp HS0.
  pose proof uro_pos as Hu. pose proof eta_pos as He. pose proof uro_small as Hus.
  assert (U1 : uro <= / 1000). { eapply Rle_trans; [exact Hus|]. apply Rinv_le_contravar; [lra|]. apply Rle_trans with (2 ^ 10); [lra|]. apply Rle_pow; [lra|leb]. }
  assert (HWx : 0 <= W * xi) by (apply Rmult_le_pos; lra).
  assert (HZ : 0 <= Z <= 2 ^ 502).
  { unfold Z. split; [lra|]. assert (W * xi <= 2 ^ 400 * 2 ^ 100) by (apply Rmult_le_compat; lra). rewrite <- pow_add in H. change (400 + 100)%nat with 500%nat in H.
    assert (2 ^ 100 <= 2 ^ 500) by (apply Rle_pow; [lra|leb]). assert (1 <= 2 ^ 500) by (apply pow_R1_Rle; lra).
    replace (2 ^ 502) with (4 * 2 ^ 500) by (replace 4 with (2 ^ 2) by lra; rewrite <- pow_add; reflexivity). lra. }
  pose proof (tiny_terms nn g xi Z Hn Hg Hx HZ) as HT.
  set (P := g * xi * (D + 1)) in *. assert (HP : 0 <= P) by (unfold P; repeat apply Rmult_le_pos; lra).
  assert (Hgx : 0 <= g * xi) by (apply Rmult_le_pos; lra).
  set (G := g * xi * Z). assert (HG0 : 0 <= G) by (unfold G; apply Rmult_le_pos; lra).
  assert (HG : G <= P + 4 * W).
  { unfold G, Z, P. replace (g * xi * (D + 1 + 2 * (W * xi))) with (g * xi * (D + 1) + 2 * W * (g * (xi * xi))) by ring.
    assert (2 * W * (g * (xi * xi)) <= 2 * W * 2) by (apply Rmult_le_compat_l; lra). lra. }
  set (Y := eta * xi * Z) in *. assert (HY0 : 0 <= Y) by (unfold Y; repeat apply Rmult_le_pos; lra).
  (* the rate times error *)
  assert (B1 : xi * (rho * E) <= 2 * (q * G) + 2 * Y).
  { apply Rle_trans with (xi * ((g * q + eta) * (2 * Z))); [apply Rmult_le_compat_l; [lra|]; apply Rmult_le_compat; lra|]. right. unfold G, Y. ring. }
  assert (B2 : xi * (3 * uro * (g + rho) * E) <= 12 * (uro * G) + 6 * (uro * Y)).
  { assert (Hr2 : g + rho <= 2 * g + eta). { assert (g * q <= g * 1) by (apply Rmult_le_compat_l; lra). lra. }
    apply Rle_trans with (xi * (3 * uro * (2 * g + eta) * (2 * Z))).
    - apply Rmult_le_compat_l; [lra|]. apply Rmult_le_compat; try lra; [|apply Rmult_le_compat_l; lra]. apply Rmult_le_pos; lra.
    - right. unfold G, Y. ring. }
  assert (B3 : xi * (g * (uro * DY)) <= uro * G).
  { apply Rle_trans with (xi * (g * (uro * Z))); [|right; unfold G; ring]. repeat apply Rmult_le_compat_l; lra. }
  assert (B4 : xi * (g * ds) <= 4 * (nn * uro * W) + 2 * (nn * (g * xi) * eta)).
  { apply Rle_trans with (xi * (g * (2 * nn * (uro * (W * xi) + eta)))); [repeat apply Rmult_le_compat_l; lra|].
    replace (xi * (g * (2 * nn * (uro * (W * xi) + eta)))) with (2 * (nn * uro * W) * (g * (xi * xi)) + 2 * (nn * (g * xi) * eta)) by ring.
    assert (0 <= nn * uro * W) by (repeat apply Rmult_le_pos; lra).
    assert (2 * (nn * uro * W) * (g * (xi * xi)) <= 2 * (nn * uro * W) * 2) by (apply Rmult_le_compat_l; lra). lra. }
  assert (B5 : nn * (eta * (2 * E + 1)) <= nn * (eta * (4 * Z + 1))) by (repeat apply Rmult_le_compat_l; lra).
  assert (B6 : q * G <= 16 * (nn + 1) * uro * G) by (apply Rmult_le_compat_r; lra).
  set (m := nn + 1) in *. assert (Hm : 1 <= m) by (unfold m; lra).
  assert (Hmu : uro <= m * uro) by (rewrite <- (Rmult_1_l uro) at 1; apply Rmult_le_compat_r; lra).
  set (t := m * uro) in *.
  assert (HmG : uro * G <= t * G) by (apply Rmult_le_compat_r; lra).
  assert (Ht0 : 0 <= t) by lra.
  assert (HtG : t * G <= t * (P + 4 * W)) by (apply Rmult_le_compat_l; lra).
  assert (HnW : nn * uro * W <= t * W). { apply Rmult_le_compat_r; [lra|]. unfold t, m. apply Rmult_le_compat_r; lra. }
  assert (HtW : 0 <= t * W) by (apply Rmult_le_pos; lra). assert (HtP : 0 <= t * P) by (apply Rmult_le_pos; lra).
  assert (HtWp : uro * Wp <= t * W + t * P + / 1000 * SL).
  { assert (uro * Wp <= uro * (W + P + SL)) by (apply Rmult_le_compat_l; lra).
    assert (uro * (W + P) <= t * (W + P)) by (apply Rmult_le_compat_r; lra).
    assert (uro * SL <= / 1000 * SL) by (apply Rmult_le_compat_r; lra). lra. }
  replace (256 * m * uro * (W + P + 1)) with (256 * (t * W) + 256 * (t * P) + 256 * t) by (unfold t; ring).
  assert (B6' : q * G <= 16 * (t * G)) by (eapply Rle_trans; [exact B6|]; right; unfold t; ring).
  replace (xi * (3 * uro * (g + rho) * E + rho * E + g * (uro * DY + ds))) with
    (xi * (3 * uro * (g + rho) * E) + xi * (rho * E) + xi * (g * (uro * DY)) + xi * (g * ds)) in HSL by ring.
  lra.
Qed.

(** ** Vectors *)
Lemma norm_tab3 n (f : nat -> R) (u v : rvec) A B C : length u = n -> length v = n -> 0 <= A -> 0 <= B -> 0 <= C ->
  (forall i, (i < n)%nat -> 0 <= f i <= A * Rabs (nth i u 0) + B * Rabs (nth i v 0) + C) ->
  norm (tab n f) <= A * norm u + B * norm v + INR n * C.
Proof.
  intros Lu Lv HA HB HC H.
  assert (Labs : forall w : rvec, length w = n -> norm (tab n (fun i => Rabs (nth i w 0))) = norm w).
  { intros w Lw. unfold norm. f_equal. rewrite !(normsq_sumn n) by (auto; apply tab_length). apply sumn_ext. intros i Hi.
    rewrite tab_nth by exact Hi. rewrite <- Rabs_mult. apply Rabs_pos_eq, Rle_0_sqr. }
  set (a := tab n (fun i => Rabs (nth i u 0))). set (b := tab n (fun i => Rabs (nth i v 0))). set (c := tab n (fun _ => C)).
  assert (La : length a = n) by apply tab_length. assert (Lb : length b = n) by apply tab_length. assert (Lc : length c = n) by apply tab_length.
  assert (Nc : norm c <= INR n * C).
  { unfold norm. rewrite (normsq_sumn n) by exact Lc. rewrite (sumn_ext n _ (fun _ => C * C)) by (intros i Hi; unfold c; rewrite tab_nth by exact Hi; reflexivity).
    assert (E : sumn n (fun _ => C * C) = INR n * (C * C)). { clear. induction n as [|n IH]; [cbn; ring|]. cbn [sumn]. rewrite IH, S_INR. ring. }
    rewrite E. assert (Hn : n = 0%nat \/ 1 <= INR n). { destruct n; [left; reflexivity|right; rewrite S_INR; pose proof (pos_INR n); lra]. }
    destruct Hn as [->|Hn]; [cbn; rewrite Rmult_0_l, sqrt_0; lra|].
    apply Rsqr_incr_0_var; [|apply Rmult_le_pos; lra]. rewrite Rsqr_sqrt by (repeat apply Rmult_le_pos; lra). unfold Rsqr.
    replace (INR n * C * (INR n * C)) with (INR n * (INR n * (C * C))) by ring. apply Rmult_le_compat_l; [lra|].
    rewrite <- (Rmult_1_l (C * C)) at 1. apply Rmult_le_compat_r; [apply Rle_0_sqr|exact Hn]. }
  apply Rle_trans with (norm (vadd (vadd (vsc A a) (vsc B b)) c)).
  - apply (norm_le n); [apply tab_length|repeat apply vadd_length; rewrite ?vsc_length; auto|]. intros i Hi.
    rewrite tab_nth by exact Hi. assert (L1 : length (vadd (vsc A a) (vsc B b)) = n) by (apply vadd_length; rewrite vsc_length; auto).
    rewrite nth_vadd by congruence. rewrite nth_vadd by (rewrite !vsc_length; congruence). rewrite !nth_vsc.
    unfold a, b, c. rewrite !tab_nth by exact Hi. rewrite Rabs_pos_eq; apply H, Hi.
  - eapply Rle_trans; [apply norm_vadd; rewrite (vadd_length _ _ n) by (rewrite vsc_length; auto); auto|].
    eapply Rle_trans; [apply Rplus_le_compat_r, norm_vadd; rewrite !vsc_length; congruence|].
    rewrite !norm_vsc, (Rabs_pos_eq A), (Rabs_pos_eq B) by assumption. unfold a, b. rewrite (Labs u Lu), (Labs v Lv). lra.
Qed.
Lemma entry_le_norm n (u : rvec) i : length u = n -> (i < n)%nat -> Rabs (nth i u 0) <= norm u.
Proof.
  intros Lu Hi. apply Rsqr_incr_0_var; [|apply norm_pos]. unfold Rsqr. rewrite norm_sq, (normsq_sumn n) by exact Lu. rewrite <- Rabs_mult, Rabs_pos_eq by apply Rle_0_sqr.
  clear Lu. induction n as [|n IH]; [lia|]. cbn [sumn]. destruct (Nat.eq_dec i n) as [->|Hne].
  - assert (0 <= sumn n (fun j => nth j u 0 * nth j u 0)) by (apply sumn_nonneg; intros; apply Rle_0_sqr). lra.
  - specialize (IH ltac:(lia)). pose proof (Rle_0_sqr (nth n u 0)). unfold Rsqr in *. lra.
Qed.
Lemma abs_sum_CS n (u v : rvec) : length u = n -> length v = n -> sumn n (fun i => Rabs (nth i u 0 * nth i v 0)) <= norm u * norm v.
Proof.
  intros Lu Lv. set (a := tab n (fun i => Rabs (nth i u 0))). set (b := tab n (fun i => Rabs (nth i v 0))).
  assert (La : length a = n) by apply tab_length. assert (Lb : length b = n) by apply tab_length.
  assert (E : sumn n (fun i => Rabs (nth i u 0 * nth i v 0)) = Rdot a b).
  { rewrite (Rdot_sumn n) by auto. apply sumn_ext. intros i Hi. unfold a, b. rewrite !tab_nth by exact Hi. apply Rabs_mult. }
  assert (N : forall w : rvec, length w = n -> normsq (tab n (fun i => Rabs (nth i w 0))) = normsq w).
  { intros w Lw. rewrite !(normsq_sumn n) by (auto; apply tab_length). apply sumn_ext. intros i Hi.
    rewrite tab_nth by exact Hi. rewrite <- Rabs_mult. apply Rabs_pos_eq, Rle_0_sqr. }
  rewrite E. pose proof (Cauchy_Schwarz a b) as CS. unfold a, b in CS. rewrite (N u Lu), (N v Lv), <- !norm_sq in CS.
  apply Rsqr_incr_0_var; [|apply Rmult_le_pos; apply norm_pos]. unfold Rsqr. unfold a, b. lra.
Qed.
Lemma step_norm n w x g d : length w = n -> length x = n -> 0 <= g -> g * normsq x <= 2 ->
  norm (vadd w (vsc (g * (d - Rdot w x)) x)) <= norm w + g * norm x * Rabs d.
Proof.
  intros Lw Lx Hg H2. set (z0 := repeat 0 n). assert (L0 : length z0 = n) by apply repeat_length.
  assert (D0 : Rdot z0 x = 0). { rewrite (Rdot_sumn n) by auto. transitivity (sumn n (fun _ => 0)); [|apply sumn_0]. apply sumn_ext; intros i Hi. unfold z0. rewrite nth_repeat. ring. }
  pose proof (gradient_move n w z0 x g d Lw L0 Lx Hg H2) as H. rewrite D0, Rplus_0_l in H.
  assert (Hs0 : forall a, length a = n -> vsub a z0 = a).
  { intros a Ha. apply nth_ext0; [rewrite (vsub_length a z0 n) by auto; auto|]. intros i _. rewrite nth_vsub by congruence. unfold z0. rewrite nth_repeat. ring. }
  rewrite !dist_norm, !Hs0 in H by (auto; apply vadd_length; rewrite ?vsc_length; auto). eapply Rle_trans; [exact H|]. right. ring.
Qed.
Lemma norm_triangle_sub n u v : length u = n -> length v = n -> norm u <= norm v + norm (vsub u v).
Proof.
  intros Lu Lv. assert (E : u = vadd v (vsub u v)).
  { apply nth_ext0; [rewrite (vadd_length _ _ n); auto; apply vsub_length; auto|]. intros i _. rewrite nth_vadd by (rewrite (vsub_length u v n); auto). rewrite nth_vsub by congruence. ring. }
  rewrite E at 1. apply norm_vadd. rewrite (vsub_length u v n); auto.
Qed.

Lemma sumn_abs n (f : nat -> R) : Rabs (sumn n f) <= sumn n (fun i => Rabs (f i)).
Proof. induction n as [|m IH]; [cbn; rewrite Rabs_R0; lra|]. cbn [sumn]. eapply Rle_trans; [apply Rabs_triang|]. lra. Qed.

(** ** One step in binary64 *)
Section Step.
  Variable dot : list float -> list float -> float.
  Hypothesis dot_ok : forall u v, length u = length v -> evaluates (combine u v) (dot u v).

  Lemma nth_fin l i : Forall fin l -> fin (nth i l PrimFloat.zero).
  Proof.
    intros H. destruct (Nat.lt_ge_cases i (length l)) as [H1|H1]; [|rewrite nth_overflow by exact H1; exact I].
    rewrite Forall_forall in H. apply H, nth_In, H1.
  Qed.
  Lemma vals_sum n (u v : list float) : length u = n -> length v = n ->
    sumn n (fun i => val (nth i u PrimFloat.zero) * val (nth i v PrimFloat.zero)) = Rdot (map val u) (map val v) /\
    sumn n (fun i => Rabs (val (nth i u PrimFloat.zero) * val (nth i v PrimFloat.zero))) = sumn n (fun i => Rabs (nth i (map val u) 0 * nth i (map val v) 0)).
  Proof.
    intros Lu Lv. split.
    - rewrite (Rdot_sumn n) by (rewrite map_length; auto). apply sumn_ext; intros i _. rewrite !vals_nth. reflexivity.
    - apply sumn_ext; intros i _. rewrite !vals_nth. reflexivity.
  Qed.
  Lemma dot_fin n (u v : list float) : length u = n -> length v = n -> (Z.of_nat n <= 2 ^ 40)%Z -> Forall fin u -> Forall fin v ->
    norm (map val u) * norm (map val v) <= 2 ^ 990 -> fin (dot u v).
  Proof.
    intros Lu Lv Hn Fu Fv HB. destruct (prods n u v Lu Lv) as (L & _ & S2).
    apply (evaluates_fin _ _ (dot_ok u v ltac:(congruence))).
    - intros (a & b) Hp. cbn [fst snd]. rewrite Forall_forall in Fu, Fv. split; [apply Fu, (in_combine_l _ _ _ _ Hp)|apply Fv, (in_combine_r _ _ _ _ Hp)].
    - rewrite L. lia.
    - rewrite S2. destruct (vals_sum n u v Lu Lv) as (_ & ->). eapply Rle_trans; [apply abs_sum_CS; rewrite map_length; auto|exact HB].
  Qed.

  Lemma step_bounds n (w x : list float) (c d : float) g q rho :
    let y := dot w x in let e := PrimFloat.sub d y in
    let w' := map2 PrimFloat.add w (map (fun a => PrimFloat.mul (PrimFloat.mul c a) e) x) in
    let W := norm (map val w) in let xi := norm (map val x) in let D := Rabs (val d) in
    length w = n -> length x = n -> (Z.of_nat n <= 2 ^ 40)%Z -> Forall fin w -> Forall fin x -> fin c -> fin d ->
    0 <= g <= 2 ^ 110 -> 0 <= q <= 16 * (INR n + 1) * uro -> Rabs (val c - g) <= rho -> rho <= g * q + eta ->
    g * normsq (map val x) <= 2 -> W <= 2 ^ 400 -> xi <= 2 ^ 100 -> D <= 2 ^ 100 ->
    let SL := norm (tab n (step_slack n g rho (map val w) (map val w') (map val x) (val d) (val y) (val e))) in
    fin y /\ fin e /\ Forall fin w' /\ SL <= 256 * (INR n + 1) * uro * (W + g * xi * (D + 1) + 1) /\
    norm (map val w') <= W + g * xi * D + SL.
  Proof.
    intros y e w' W xi D Lw Lx Hn Fw Fx Fc Fd Hg Hq Hc Hrho Hg2 HW Hxi HD SL.
    pose proof uro_pos as Hu. pose proof eta_pos as He. pose proof uro_small as Hus. pose proof eta_small as Hes.
    assert (W0 : 0 <= W) by apply norm_pos. assert (X0 : 0 <= xi) by apply norm_pos. assert (D0 : 0 <= D) by apply Rabs_pos.
    assert (HWx : 0 <= W * xi <= 2 ^ 500).
    { split; [apply Rmult_le_pos; lra|]. change 500%nat with (400 + 100)%nat. rewrite pow_add. apply Rmult_le_compat; lra. }
    assert (P500 : 1 <= 2 ^ 500) by (apply pow_R1_Rle; lra).
    assert (Fy : fin y). { apply (dot_fin n); auto. fold W xi. apply Rle_trans with (2 ^ 500); [lra|]. apply Rle_pow; [lra|leb]. }
    assert (HnZ : (Z.of_nat n <= 2 ^ 50)%Z) by lia.
    destruct (dot_err dot dot_ok n w x Lw Lx Fy) as (_ & A1). destruct (vals_sum n w x Lw Lx) as (V1 & V2). rewrite V1, V2 in A1. fold y in A1.
    set (S1 := sumn n (fun i => Rabs (nth i (map val w) 0 * nth i (map val x) 0))) in *.
    assert (HS : 0 <= S1 <= W * xi). { split; [apply sumn_nonneg; intros; apply Rabs_pos|apply abs_sum_CS; rewrite map_length; auto]. }
    set (ds := dot_slack n S1) in *. assert (Hds0 : 0 <= ds) by (apply dot_slack_nonneg; lra).
    pose proof (slack_simple n S1 HnZ ltac:(lra)) as Hds1. fold ds in Hds1. pose proof (dot_slack_small n S1 HnZ ltac:(lra)) as Hds2. fold ds in Hds2.
    set (Z := D + 1 + 2 * (W * xi)).
    assert (Hdot : Rabs (Rdot (map val w) (map val x)) <= S1).
    { rewrite (Rdot_sumn n) by (rewrite map_length; auto). apply sumn_abs. }
    assert (HY : Rabs (val y) <= 2 * (W * xi) + 1).
    { replace (val y) with ((val y - Rdot (map val w) (map val x)) + Rdot (map val w) (map val x)) by ring. eapply Rle_trans; [apply Rabs_triang|]. lra. }
    assert (HDY : Rabs (val d - val y) <= Z).
    { unfold Rminus. eapply Rle_trans; [apply Rabs_triang|]. rewrite Rabs_Ropp. fold D. unfold Z. lra. }
    assert (P100 : 2 ^ 100 <= 2 ^ 500) by (apply Rle_pow; [lra|leb]).
    assert (HZ : Z <= 2 ^ 502). { unfold Z. replace (2 ^ 502) with (4 * 2 ^ 500) by (replace 4 with (2 ^ 2) by lra; rewrite <- pow_add; reflexivity). lra. }
    assert (HC1 : 2 ^ 503 <= cap) by (apply Rle_pow; [lra|leb]).
    assert (E503 : 2 ^ 503 = 2 * 2 ^ 502) by (change 503%nat with (S 502); reflexivity).
    assert (Fe : fin e). { apply sub_ok; auto. fold D. unfold Z in HZ. lra. }
    assert (HE : Rabs (val e) <= 2 * Z).
    { destruct (sub_err d y Fe) as (dl & Hdl & E). fold e in E. rewrite E, Rabs_mult.
      assert (Rabs (1 + dl) <= 2). { eapply Rle_trans; [apply Rabs_triang|]. rewrite Rabs_R1. assert (uro <= 1); [|lra]. eapply Rle_trans; [exact Hus|]. rewrite <- Rinv_1. apply Rinv_le_contravar; [lra|apply pow_R1_Rle; lra]. }
      rewrite Rmult_comm. apply Rmult_le_compat; try apply Rabs_pos; lra. }
    assert (N0 : 0 <= INR n) by apply pos_INR.
    assert (Nn : INR n <= 2 ^ 40).
    { rewrite INR_IZR_INZ. replace (2 ^ 40) with (IZR (2 ^ 40)) by (symmetry; exact (pow_IZR 2 40)). apply IZR_le, Hn. }
    assert (Hq1 : q <= 1).
    { apply Rle_trans with (2 ^ 45 * / 2 ^ 50).
      - destruct Hq as (_ & Hq). eapply Rle_trans; [exact Hq|]. apply Rmult_le_compat; [lra|lra| |exact Hus].
        replace (2 ^ 45) with (32 * 2 ^ 40) by (replace 32 with (2 ^ 5) by lra; rewrite <- pow_add; reflexivity).
        assert (1 <= 2 ^ 40) by (apply pow_R1_Rle; lra). lra.
      - rewrite pw by leb. rewrite <- Rinv_1. apply Rinv_le_contravar; [lra|apply pow_R1_Rle; lra]. }
    assert (R0 : 0 <= rho) by (eapply Rle_trans; [apply Rabs_pos|exact Hc]).
    assert (He1 : eta <= 1). { eapply Rle_trans; [exact Hes|]. rewrite <- Rinv_1. apply Rinv_le_contravar; [lra|apply pow_R1_Rle; lra]. }
    assert (Hcv : Rabs (val c) <= 2 ^ 112).
    { replace (val c) with ((val c - g) + g) by ring. eapply Rle_trans; [apply Rabs_triang|]. rewrite (Rabs_pos_eq g) by lra.
      assert (g * q <= g * 1) by (apply Rmult_le_compat_l; lra). replace (2 ^ 112) with (4 * 2 ^ 110) by (replace 4 with (2 ^ 2) by lra; rewrite <- pow_add; reflexivity).
      assert (1 <= 2 ^ 110) by (apply pow_R1_Rle; lra). lra. }
    assert (Hxe : forall i, (i < n)%nat -> Rabs (val (nth i x PrimFloat.zero)) <= 2 ^ 100).
    { intros i Hi. rewrite <- vals_nth. eapply Rle_trans; [apply (entry_le_norm n); [rewrite map_length; auto|exact Hi]|exact Hxi]. }
    assert (Hwe : forall i, (i < n)%nat -> Rabs (val (nth i w PrimFloat.zero)) <= 2 ^ 400).
    { intros i Hi. rewrite <- vals_nth. eapply Rle_trans; [apply (entry_le_norm n); [rewrite map_length; auto|exact Hi]|exact HW]. }
    assert (Fw' : Forall fin w').
    { apply Forall_forall. intros a Ha. destruct (In_nth w' a PrimFloat.zero Ha) as (i & Hi & <-).
      assert (Lw' : length w' = n) by (apply map2_length_eq; [exact Lw|rewrite map_length; exact Lx]). rewrite Lw' in Hi.
      assert (Ew : nth i w' PrimFloat.zero = PrimFloat.add (nth i w PrimFloat.zero) (PrimFloat.mul (PrimFloat.mul c (nth i x PrimFloat.zero)) e)).
      { unfold w'. rewrite (map2_nth PrimFloat.add w _ i PrimFloat.zero PrimFloat.zero PrimFloat.zero) by (rewrite ?map_length; lia). f_equal.
        rewrite (nth_indep _ PrimFloat.zero (PrimFloat.mul (PrimFloat.mul c PrimFloat.zero) e)) by (rewrite map_length; lia).
        exact (map_nth (fun a => PrimFloat.mul (PrimFloat.mul c a) e) x PrimFloat.zero i). }
      rewrite Ew. pose proof (nth_fin x i Fx) as Fxi. pose proof (nth_fin w i Fw) as Fwi. pose proof (Hxe i Hi) as Bx. pose proof (Hwe i Hi) as Bw.
      assert (F1 : fin (PrimFloat.mul c (nth i x PrimFloat.zero))).
      { apply mul_ok; auto. rewrite Rabs_mult. apply Rle_trans with (2 ^ 112 * 2 ^ 100); [apply Rmult_le_compat; try apply Rabs_pos; lra|].
        rewrite <- pow_add. apply Rle_pow; [lra|leb]. }
      assert (B1 : Rabs (val (PrimFloat.mul c (nth i x PrimFloat.zero))) <= 2 ^ 214).
      { destruct (mul_err _ _ F1) as (dl & h & Hdl & Hh & ->). eapply Rle_trans; [apply Rabs_triang|]. rewrite Rabs_mult.
        assert (Q1 : Rabs (val c * val (nth i x PrimFloat.zero)) <= 2 ^ 212). { rewrite Rabs_mult. change 212%nat with (112 + 100)%nat. rewrite pow_add. apply Rmult_le_compat; try apply Rabs_pos; lra. }
        assert (Q2 : Rabs (1 + dl) <= 2). { eapply Rle_trans; [apply Rabs_triang|]. rewrite Rabs_R1. assert (uro <= 1); [|lra]. eapply Rle_trans; [exact Hus|]. rewrite <- Rinv_1. apply Rinv_le_contravar; [lra|apply pow_R1_Rle; lra]. }
        assert (Rabs (val c * val (nth i x PrimFloat.zero)) * Rabs (1 + dl) <= 2 ^ 212 * 2) by (apply Rmult_le_compat; try apply Rabs_pos; lra).
        replace (2 ^ 214) with (4 * 2 ^ 212) by (replace 4 with (2 ^ 2) by lra; rewrite <- pow_add; reflexivity). assert (1 <= 2 ^ 212) by (apply pow_R1_Rle; lra). lra. }
      assert (B2 : Rabs (val (PrimFloat.mul c (nth i x PrimFloat.zero)) * val e) <= 2 ^ 717).
      { rewrite Rabs_mult. change 717%nat with (214 + 503)%nat. rewrite pow_add. apply Rmult_le_compat; try apply Rabs_pos; lra. }
      assert (F2 : fin (PrimFloat.mul (PrimFloat.mul c (nth i x PrimFloat.zero)) e)).
      { apply mul_ok; auto. eapply Rle_trans; [exact B2|]. apply Rle_pow; [lra|leb]. }
      apply add_ok; auto.
      destruct (mul_err _ _ F2) as (dl & h & Hdl & Hh & ->).
      assert (Q2 : Rabs (1 + dl) <= 2). { eapply Rle_trans; [apply Rabs_triang|]. rewrite Rabs_R1. assert (uro <= 1); [|lra]. eapply Rle_trans; [exact Hus|]. rewrite <- Rinv_1. apply Rinv_le_contravar; [lra|apply pow_R1_Rle; lra]. }
      assert (Q3 : Rabs (val (PrimFloat.mul c (nth i x PrimFloat.zero)) * val e * (1 + dl) + h) <= 2 ^ 717 * 2 + 1).
      { eapply Rle_trans; [apply Rabs_triang|]. rewrite (Rabs_mult _ (1 + dl)). apply Rplus_le_compat; [apply Rmult_le_compat; try apply Rabs_pos; lra|lra]. }
      assert (2 ^ 400 <= 2 ^ 717) by (apply Rle_pow; [lra|leb]). assert (1 <= 2 ^ 717) by (apply pow_R1_Rle; lra).
      apply Rle_trans with (2 ^ 719); [|apply Rle_pow; [lra|leb]]. replace (2 ^ 719) with (4 * 2 ^ 717) by (replace 4 with (2 ^ 2) by lra; rewrite <- pow_add; reflexivity). lra. }
    split; [exact Fy|]. split; [exact Fe|]. split; [exact Fw'|].
    (* the slack *)
    assert (Lw' : length (map val w') = n) by (rewrite map_length; apply map2_length_eq; [exact Lw|rewrite map_length; exact Lx]).
    assert (Lxv : length (map val x) = n) by (rewrite map_length; exact Lx). assert (Lwv : length (map val w) = n) by (rewrite map_length; exact Lw).
    set (B := 3 * uro * (g + rho) * Rabs (val e) + rho * Rabs (val e) + g * (uro * Rabs (val d - val y) + ds)).
    assert (U1 : uro <= 1). { eapply Rle_trans; [exact Hus|]. rewrite <- Rinv_1. apply Rinv_le_contravar; [lra|apply pow_R1_Rle; lra]. }
    assert (HB0 : 0 <= B).
    { unfold B. pose proof (Rabs_pos (val e)). pose proof (Rabs_pos (val d - val y)).
      assert (0 <= 3 * uro * (g + rho) * Rabs (val e)) by (repeat apply Rmult_le_pos; lra). assert (0 <= rho * Rabs (val e)) by (apply Rmult_le_pos; lra).
      assert (0 <= uro * Rabs (val d - val y)) by (apply Rmult_le_pos; lra). assert (0 <= g * (uro * Rabs (val d - val y) + ds)) by (apply Rmult_le_pos; lra). lra. }
    assert (HSL : SL <= uro * norm (map val w') + B * xi + INR n * (eta * (2 * Rabs (val e) + 1))).
    { apply (norm_tab3 n _ (map val w') (map val x)); auto; try lra.
      - apply Rmult_le_pos; [lra|]. pose proof (Rabs_pos (val e)). lra.
      - intros i Hi. unfold step_slack. fold S1 ds.
        set (xa := Rabs (nth i (map val x) 0)). assert (Hxa : 0 <= xa) by apply Rabs_pos. pose proof (Rabs_pos (nth i (map val w') 0)) as Hwa.
        assert (Exe : Rabs (nth i (map val x) 0 * val e) = xa * Rabs (val e)) by apply Rabs_mult. rewrite Exe.
        set (ea := Rabs (val e)) in *. assert (Hea : 0 <= ea) by apply Rabs_pos. set (ya := Rabs (val d - val y)) in *. assert (Hya : 0 <= ya) by apply Rabs_pos.
        assert (Hc2 : 0 <= (1 + uro) ^ 2 - 1 <= 3 * uro) by nra.
        assert (Hgr : 0 <= (g + rho) * (xa * ea)) by (repeat apply Rmult_le_pos; lra).
        assert (G1 : 0 <= ((1 + uro) ^ 2 - 1) * ((g + rho) * (xa * ea)) <= 3 * uro * ((g + rho) * (xa * ea))) by (split; [apply Rmult_le_pos; lra|apply Rmult_le_compat_r; lra]).
        assert (G2 : 0 <= eta * ((1 + uro) * ea + 1) <= eta * (2 * ea + 1)).
        { assert (0 <= (1 + uro) * ea <= 2 * ea) by (split; [apply Rmult_le_pos; lra|apply Rmult_le_compat_r; lra]). split; [apply Rmult_le_pos; lra|apply Rmult_le_compat_l; lra]. }
        assert (G3 : 0 <= xa * (rho * ea + g * (uro * ya + ds))).
        { assert (0 <= rho * ea) by (apply Rmult_le_pos; lra). assert (0 <= uro * ya) by (apply Rmult_le_pos; lra). assert (0 <= g * (uro * ya + ds)) by (apply Rmult_le_pos; lra). apply Rmult_le_pos; lra. }
        assert (G4 : 0 <= uro * Rabs (nth i (map val w') 0)) by (apply Rmult_le_pos; lra).
        split; [lra|]. unfold B. replace ((3 * uro * (g + rho) * ea + rho * ea + g * (uro * ya + ds)) * xa) with
          (3 * uro * ((g + rho) * (xa * ea)) + xa * (rho * ea + g * (uro * ya + ds))) by ring. lra. }
    assert (Hstep : norm (map val w') <= W + g * xi * D + SL).
    { pose proof (float_step dot dot_ok n g rho w x c d Lw Lx Fw' Fy Fe ltac:(lra) Hc) as HF. cbv zeta in HF.
      set (ex := vadd (map val w) (vsc (g * (val d - Rdot (map val w) (map val x))) (map val x))).
      assert (Lex : length ex = n) by (apply vadd_length; [exact Lwv|rewrite vsc_length; exact Lxv]).
      eapply Rle_trans; [apply (norm_triangle_sub n _ ex); auto|]. apply Rplus_le_compat.
      - apply (step_norm n); auto; lra.
      - apply (norm_le n); [apply vsub_length; auto|apply tab_length|]. intros i Hi. rewrite tab_nth by exact Hi. rewrite nth_vsub by congruence.
        unfold ex. rewrite nth_vadd by (rewrite vsc_length; congruence). rewrite nth_vsc. apply HF, Hi. }
    split; [|exact Hstep].
    apply (slack_num (INR n) W xi D g q rho (Rabs (val d - val y)) (Rabs (val e)) ds (norm (map val w')) SL); auto; try lra.
    - unfold xi. rewrite norm_sq. exact Hg2.
    - split; [apply Rabs_pos|exact HE].
    - split; [apply Rabs_pos|exact HDY].
    - split; [exact Hds0|]. eapply Rle_trans; [exact Hds2|]. apply Rmult_le_compat_l; [lra|]. apply Rplus_le_compat_r. apply Rmult_le_compat_l; lra.
    - eapply Rle_trans; [exact HSL|]. right. unfold B. ring.
    - assert (0 <= g * xi) by (apply Rmult_le_pos; lra). assert (g * xi * D <= g * xi * (D + 1)) by (apply Rmult_le_compat_l; lra). lra.
    - apply norm_pos.
  Qed.
End Step.

(** ** Whole runs *)
Lemma growth a k : 0 <= a -> INR k * a <= / 2 -> 1 <= (1 + a) ^ k <= 2.
Proof.
  intros Ha Hk. split; [apply pow_R1_Rle; lra|].
  assert (G : (1 + a) ^ k * (1 - INR k * a) <= 1).
  { clear Hk. induction k as [|k IH]; [cbn; lra|]. rewrite S_INR. cbn [pow].
    assert (P1 : 1 <= (1 + a) ^ k) by (apply pow_R1_Rle; lra). pose proof (pos_INR k) as P2.
    replace ((1 + a) * (1 + a) ^ k * (1 - (INR k + 1) * a)) with ((1 + a) ^ k * (1 - INR k * a) - (1 + a) ^ k * (INR k + 1) * a * a) by ring.
    assert (0 <= (1 + a) ^ k * (INR k + 1) * a * a) by (repeat apply Rmult_le_pos; lra). lra. }
  set (p := (1 + a) ^ k) in *. assert (1 <= p) by (apply pow_R1_Rle; lra).
  assert (p * / 2 <= p * (1 - INR k * a)) by (apply Rmult_le_compat_l; lra). lra.
Qed.

(** the relative rounding error of one step *)
Definition unit_err (n : nat) : R := 256 * (INR n + 1) * uro.
Lemma unit_err_nonneg n : 0 <= unit_err n.
Proof. unfold unit_err. pose proof (pos_INR n). pose proof uro_pos. repeat apply Rmult_le_pos; lra. Qed.
Lemma unit_err_small n N : (Z.of_nat N * (Z.of_nat n + 1) <= 2 ^ 44)%Z -> INR N * unit_err n <= / 2.
Proof.
  intros H. unfold unit_err. replace (INR N * (256 * (INR n + 1) * uro)) with (256 * uro * (INR N * (INR n + 1))) by ring.
  assert (B : INR N * (INR n + 1) <= 2 ^ 44).
  { rewrite !INR_IZR_INZ, <- plus_IZR, <- mult_IZR. replace (2 ^ 44) with (IZR (2 ^ 44)) by (symmetry; exact (pow_IZR 2 44)). apply IZR_le, H. }
  pose proof uro_pos. apply Rle_trans with (256 * uro * 2 ^ 44); [apply Rmult_le_compat_l; lra|]. unfold uro. right. field.
Qed.

Section Run.
  Variable solve : list (list float) -> list (list float) -> option (list (list float)).
  Variables (tanh exp : float -> float) (power : float -> float -> float) (sum : list float -> float) (dot : list float -> list float -> float).
  Hypothesis dot_ok : forall u v, length u = length v -> evaluates (combine u v) (dot u v).
  #[local] Hint Extern 0 (Num float) => exact (FNumD solve tanh exp power sum dot) : typeclass_instances.

  Lemma sane_run n (oF oF' : obj float) d x y e w (cF : list float -> float) (G q rho : nat -> R) W0 beta :
    wf n oF -> rows_of n x ->
    is_AP oF = false /\ is_OCNLMS oF = false /\ (forall s er u, o_ext s = o_ext oF -> o_mu s = o_mu oF ->
      learning_rule er u s = (s, Ok (map (fun a => PrimFloat.mul (PrimFloat.mul (cF u) a) er) u))) ->
    run d x oF = (oF', Ok (y, e, w)) ->
    (Z.of_nat n <= 2 ^ 40)%Z -> (Z.of_nat (length x) * (Z.of_nat n + 1) <= 2 ^ 44)%Z ->
    Forall fin (o_w oF) -> norm (map val (o_w oF)) <= W0 -> W0 <= 2 ^ 100 -> 0 <= beta <= 2 ^ 302 ->
    let X k := map val (nth k x []) in let D k := val (nth k d PrimFloat.zero) in
    (forall k, (k < length x)%nat -> fin (cF (nth k x [])) /\ Forall fin (nth k x []) /\ fin (nth k d PrimFloat.zero) /\
      0 <= G k <= 2 ^ 110 /\ 0 <= q k <= 16 * (INR n + 1) * uro /\ Rabs (val (cF (nth k x [])) - G k) <= rho k /\ rho k <= G k * q k + eta /\
      G k * normsq (X k) <= 2 /\ norm (X k) <= 2 ^ 100 /\ Rabs (D k) <= 2 ^ 100 /\ G k * norm (X k) * (Rabs (D k) + 1) <= beta) ->
    let WF k := map val (nth k (w ++ [o_w oF']) []) in
    forall k, (k <= length x)%nat ->
      Forall fin (nth k (w ++ [o_w oF']) []) /\ norm (WF k) <= 2 * (W0 + INR k * (beta + 1)) /\
      ((k < length x)%nat -> fin (nth k y PrimFloat.zero) /\ fin (nth k e PrimFloat.zero) /\
        norm (tab n (step_slack n (G k) (rho k) (WF k) (WF (S k)) (X k) (D k) (val (nth k y PrimFloat.zero)) (val (nth k e PrimFloat.zero)))) <=
        unit_err n * (norm (WF k) + beta + 1)).
  Proof.
    intros HwF Hx (K1 & K2 & K3) HR Hn HN Fw0 HW0 HWb Hb X D HS WF.
    destruct (plain_run n oF oF' d x y e w (fun er u => map (fun a => PrimFloat.mul (PrimFloat.mul (cF u) a) er) u) HwF Hx K1 K2 K3 ltac:(intros; apply map_length) HR) as (E0 & HF).
    set (a := unit_err n). assert (Ha : 0 <= a) by apply unit_err_nonneg.
    assert (HaN : forall k, (k <= length x)%nat -> INR k * a <= / 2).
    { intros k Hk. eapply Rle_trans; [|apply (unit_err_small n (length x) HN)]. apply Rmult_le_compat_r; [exact Ha|apply le_INR, Hk]. }
    assert (HW00 : 0 <= W0) by (eapply Rle_trans; [apply norm_pos|exact HW0]).
    assert (HNr : INR (length x) <= 2 ^ 44).
    { rewrite INR_IZR_INZ. replace (2 ^ 44) with (IZR (2 ^ 44)) by (symmetry; exact (pow_IZR 2 44)). apply IZR_le. nia. }
    assert (Big : forall k, (k <= length x)%nat -> 2 * (W0 + INR k * (beta + 1)) <= 2 ^ 400).
    { intros k Hk. pose proof (pos_INR k) as P0. assert (P1 : INR k <= 2 ^ 44) by (eapply Rle_trans; [apply le_INR, Hk|exact HNr]).
      assert (1 <= 2 ^ 302) by (apply pow_R1_Rle; lra).
      assert (INR k * (beta + 1) <= 2 ^ 44 * 2 ^ 303).
      { apply Rmult_le_compat; try lra. }
      rewrite <- pow_add in H0. change (44 + 303)%nat with 347%nat in H0. assert (2 ^ 100 <= 2 ^ 347) by (apply Rle_pow; [lra|leb]).
      assert (2 ^ 349 <= 2 ^ 400) by (apply Rle_pow; [lra|leb]). assert (2 ^ 349 = 4 * 2 ^ 347) by (replace 4 with (2 ^ 2) by lra; rewrite <- pow_add; reflexivity). lra. }
    assert (Fin : forall k, (k <= length x)%nat -> norm (WF k) <= (1 + a) ^ k * (W0 + INR k * (beta + 1)) -> norm (WF k) <= 2 * (W0 + INR k * (beta + 1))).
    { intros k Hk H. eapply Rle_trans; [exact H|]. assert (0 <= INR k * (beta + 1)) by (apply Rmult_le_pos; [apply pos_INR|lra]). apply Rmult_le_compat_r; [lra|]. apply growth; auto. }
    assert (Step : forall k, (k < length x)%nat -> Forall fin (nth k (w ++ [o_w oF']) []) -> norm (WF k) <= 2 * (W0 + INR k * (beta + 1)) ->
      fin (nth k y PrimFloat.zero) /\ fin (nth k e PrimFloat.zero) /\ Forall fin (nth (S k) (w ++ [o_w oF']) []) /\
      norm (tab n (step_slack n (G k) (rho k) (WF k) (WF (S k)) (X k) (D k) (val (nth k y PrimFloat.zero)) (val (nth k e PrimFloat.zero)))) <= a * (norm (WF k) + beta + 1) /\
      norm (WF (S k)) <= norm (WF k) + beta + a * (norm (WF k) + beta + 1)).
    { intros k Hk Fk Bk. destruct (HF k Hk) as (L1 & _ & L3 & HFy & HFe & HFw).
      change (nth k y PrimFloat.zero = dot (nth k (w ++ [o_w oF']) []) (nth k x [])) in HFy.
      change (nth k e PrimFloat.zero = PrimFloat.sub (nth k d PrimFloat.zero) (nth k y PrimFloat.zero)) in HFe.
      change (nth (S k) (w ++ [o_w oF']) [] = map2 PrimFloat.add (nth k (w ++ [o_w oF']) []) (map (fun a => PrimFloat.mul (PrimFloat.mul (cF (nth k x [])) a) (nth k e PrimFloat.zero)) (nth k x []))) in HFw.
      destruct (HS k Hk) as (S1 & S2 & S3 & S4 & S5 & S6 & S7 & S8 & S9 & S10 & S11).
      destruct (step_bounds dot dot_ok n (nth k (w ++ [o_w oF']) []) (nth k x []) (cF (nth k x [])) (nth k d PrimFloat.zero) (G k) (q k) (rho k)
        L1 L3 Hn Fk S2 S1 S3 S4 S5 S6 S7 S8 (Rle_trans _ _ _ Bk (Big k ltac:(lia))) S9 S10) as (R1 & R2 & R3 & R4 & R5).
      rewrite <- HFy in R1, R2, R3, R4, R5. rewrite <- HFe in R2, R3, R4, R5. rewrite <- HFw in R3, R4, R5.
      split; [exact R1|]. split; [exact R2|]. split; [exact R3|].
      change (norm (map val (nth k (w ++ [o_w oF']) []))) with (norm (WF k)) in R4, R5. fold (X k) (D k) in R4, R5.
      fold (WF k) (WF (S k)) in R4, R5. fold (unit_err n) a in R4.
      set (SL := norm (tab n _)) in *. change (norm (tab n _)) with SL in R5.
      assert (Hgx : 0 <= G k * norm (X k)) by (apply Rmult_le_pos; [lra|apply norm_pos]).
      assert (M1 : a * (norm (WF k) + G k * norm (X k) * (Rabs (D k) + 1) + 1) <= a * (norm (WF k) + beta + 1)) by (apply Rmult_le_compat_l; lra).
      split; [lra|]. lra. }
    assert (Main : forall k, (k <= length x)%nat -> Forall fin (nth k (w ++ [o_w oF']) []) /\ norm (WF k) <= (1 + a) ^ k * (W0 + INR k * (beta + 1))).
    { induction k as [|k IH]; intros Hk.
      - unfold WF. rewrite E0. split; [exact Fw0|]. cbn [pow INR]. lra.
      - destruct (IH ltac:(lia)) as (I1 & I2). pose proof (Fin k ltac:(lia) I2) as I3. destruct (Step k Hk I1 I3) as (_ & _ & J1 & _ & J2).
        split; [exact J1|]. eapply Rle_trans; [exact J2|]. rewrite S_INR. cbn [pow]. set (p := (1 + a) ^ k) in *. assert (1 <= p) by (apply pow_R1_Rle; lra).
        replace (norm (WF k) + beta + a * (norm (WF k) + beta + 1)) with ((1 + a) * norm (WF k) + (1 + a) * (beta + 1) - 1) by ring.
        assert ((1 + a) * norm (WF k) <= (1 + a) * (p * (W0 + INR k * (beta + 1)))) by (apply Rmult_le_compat_l; lra).
        assert ((1 + a) * (1 * (beta + 1)) <= (1 + a) * (p * (beta + 1))) by (apply Rmult_le_compat_l; [lra|]; apply Rmult_le_compat_r; lra).
        replace ((1 + a) * p * (W0 + (INR k + 1) * (beta + 1))) with ((1 + a) * (p * (W0 + INR k * (beta + 1))) + (1 + a) * (p * (beta + 1))) by ring. lra. }
    intros k Hk. destruct (Main k Hk) as (M1 & M2). pose proof (Fin k Hk M2) as M3. split; [exact M1|]. split; [exact M3|].
    intros Hk'. destruct (Step k Hk' M1 M3) as (R1 & R2 & _ & R4 & _). auto.
  Qed.
End Run.

(** ** C89 *)
Lemma nlms_q n eps x : (Z.of_nat n <= 2 ^ 40)%Z -> / 2 ^ 100 <= eps ->
  let k := kappa n eps x in 0 <= k <= / 2 /\ 0 <= (k + uro) / (1 - k) <= 16 * (INR n + 1) * uro.
Proof.
  intros Hn He k. pose proof uro_pos as Hu. pose proof eta_pos as Ht. pose proof (normsq_nonneg x) as HQ. set (Q := normsq x) in *.
  assert (HnZ : (Z.of_nat n <= 2 ^ 50)%Z) by lia. pose proof (pos_INR n) as N0.
  assert (Nn : INR n <= 2 ^ 40).
  { rewrite INR_IZR_INZ. replace (2 ^ 40) with (IZR (2 ^ 40)) by (symmetry; exact (pow_IZR 2 40)). apply IZR_le, Hn. }
  assert (He0 : 0 < eps). { eapply Rlt_le_trans; [|exact He]. apply Rinv_0_lt_compat, pow_lt. lra. }
  assert (Het : eta <= uro * eps).
  { apply Rle_trans with (uro * / 2 ^ 100); [|apply Rmult_le_compat_l; lra]. unfold eta, uro. rewrite <- Rinv_mult, <- pow_add. apply pw_le. leb. }
  assert (HD0 : 0 <= dot_slack n Q) by (apply dot_slack_nonneg; exact HQ).
  assert (HD : dot_slack n Q <= 2 * INR n * uro * (eps + Q)).
  { eapply Rle_trans; [apply dot_slack_small; assumption|]. assert (INR n * eta <= INR n * (uro * eps)) by (apply Rmult_le_compat_l; lra). lra. }
  assert (HP : 0 < eps + Q) by lra.
  assert (U1 : uro <= / 2 ^ 50) by apply uro_small.
  assert (U2 : uro <= / 8). { eapply Rle_trans; [exact U1|]. replace (/ 8) with (/ 2 ^ 3) by lra. apply pw_le. leb. }
  assert (HR : 0 <= (1 + uro) * dot_slack n Q / (eps + Q) <= (1 + uro) * (2 * INR n * uro)).
  { split; [apply Rmult_le_pos; [apply Rmult_le_pos; lra|left; apply Rinv_0_lt_compat; exact HP]|].
    apply Rmult_le_reg_r with (eps + Q); [exact HP|]. unfold Rdiv. rewrite Rmult_assoc, Rinv_l, Rmult_1_r by lra.
    rewrite (Rmult_assoc (1 + uro)). apply Rmult_le_compat_l; lra. }
  assert (Hnu : 0 <= INR n * uro) by (apply Rmult_le_pos; lra).
  assert (Hnu2 : INR n * uro <= / 2 ^ 10).
  { apply Rle_trans with (2 ^ 40 * / 2 ^ 50); [apply Rmult_le_compat; lra|]. rewrite pw by leb. apply pw_le. leb. }
  assert (Hk : 0 <= k <= uro + 3 * (INR n * uro)).
  { unfold k, kappa. fold Q. assert ((1 + uro) * (2 * INR n * uro) <= 3 / 2 * (2 * INR n * uro)) by (apply Rmult_le_compat_r; lra). lra. }
  assert (Hk2 : k <= / 2) by (assert (/ 2 ^ 10 <= / 8) by (replace (/ 8) with (/ 2 ^ 3) by lra; apply pw_le; leb); lra).
  split; [lra|]. assert (H1 : 0 < 1 - k) by lra. split; [apply Rmult_le_pos; [lra|left; apply Rinv_0_lt_compat; exact H1]|].
  apply Rmult_le_reg_r with (1 - k); [exact H1|]. unfold Rdiv. rewrite Rmult_assoc, Rinv_l, Rmult_1_r by lra.
  assert (T : 0 <= 16 * (INR n + 1) * uro) by (repeat apply Rmult_le_pos; lra).
  apply Rle_trans with (16 * (INR n + 1) * uro * / 2); [lra|]. apply Rmult_le_compat_l; lra.
Qed.

Section C89.
  Variable solve : list (list float) -> list (list float) -> option (list (list float)).
  Variables (tanh exp : float -> float) (power : float -> float -> float) (sum : list float -> float) (dot : list float -> list float -> float).
  Hypothesis dot_ok : forall u v, length u = length v -> evaluates (combine u v) (dot u v).
  Variable solveR : list rvec -> list rvec -> option (list rvec).
  #[local] Hint Extern 0 (Num float) => exact (FNumD solve tanh exp power sum dot) : typeclass_instances.
  #[local] Hint Extern 0 (Num R) => exact (RNum solveR) : typeclass_instances.

  Lemma run_existsF n (o : obj float) d x : reachable n o -> rows_of n x -> length d = length x -> x <> [] ->
    (forall ex, ~ soft_exn o ex) -> exists o' y e w, run d x o = (o', Ok (y, e, w)) /\ length y = length x /\ length e = length x /\ length w = length x.
  Proof.
    intros Hr Hx Hl Hne Hs. apply reachable_wf in Hr.
    destruct (run_eq n o d x Hr Hx Hl Hne) as (h & -> & _).
    destruct (adapt_all_ok n d x o Hr Hx) as (o' & r & -> & _ & _ & _ & [-> | (ex & -> & He)]); [|exfalso; eapply Hs; eauto].
    do 4 eexists. split; [reflexivity|].
    pose proof (ytrace_length d x o Hl) as Hy. split; [exact Hy|]. split; [|apply wtrace_length; exact Hl].
    apply map2_length_eq; [exact Hl|rewrite Hy; reflexivity].
  Qed.

  Lemma nlms_rate_fin n (mu eps : float) (x : list float) : length x = n -> (Z.of_nat n <= 2 ^ 40)%Z -> Forall fin x -> fin mu -> fin eps ->
    0 <= val mu <= 2 -> / 2 ^ 100 <= val eps <= 2 ^ 100 -> norm (map val x) <= 2 ^ 100 ->
    let P := PrimFloat.add eps (dot x x) in fin P /\ fin (PrimFloat.div mu P).
  Proof.
    intros Lx Hn Fx Fm Fe Hmu Heps Hxi P. pose proof uro_pos as Hu. pose proof eta_pos as Ht.
    assert (Lv : length (map val x) = n) by (rewrite map_length; exact Lx).
    pose proof (norm_pos (map val x)) as X0.
    assert (HQ2 : normsq (map val x) <= 2 ^ 200). { rewrite <- norm_sq. change 200%nat with (100 + 100)%nat. rewrite pow_add. apply Rmult_le_compat; lra. }
    pose proof (normsq_nonneg (map val x)) as HQ.
    assert (Fd : fin (dot x x)).
    { apply (dot_fin dot dot_ok n); auto. rewrite norm_sq. eapply Rle_trans; [exact HQ2|]. apply Rle_pow; [lra|leb]. }
    destruct (dot_err dot dot_ok n x x Lx Lx Fd) as (_ & A1). destruct (vals_sum n x x Lx Lx) as (V1 & V2). rewrite V1, V2 in A1.
    assert (Ea : sumn n (fun i => Rabs (nth i (map val x) 0 * nth i (map val x) 0)) = normsq (map val x)).
    { rewrite (normsq_sumn n) by exact Lv. apply sumn_ext; intros i _. apply Rabs_pos_eq, Rle_0_sqr. }
    rewrite Ea in A1. fold (normsq (map val x)) in A1. set (Q := normsq (map val x)) in *.
    destruct (nlms_q n (val eps) (map val x) Hn (proj1 Heps)) as (Hk & _). unfold kappa in Hk. fold Q in Hk.
    assert (HP : 0 < val eps + Q). { assert (0 < / 2 ^ 100) by (apply Rinv_0_lt_compat, pow_lt; lra). lra. }
    assert (HD : dot_slack n Q <= / 2 * (val eps + Q)).
    { assert (HD0 : 0 <= dot_slack n Q) by (apply dot_slack_nonneg; exact HQ).
      assert (T : dot_slack n Q / (val eps + Q) <= / 2).
      { apply Rle_trans with ((1 + uro) * dot_slack n Q / (val eps + Q)); [|lra]. unfold Rdiv. apply Rmult_le_compat_r; [left; apply Rinv_0_lt_compat; exact HP|].
        rewrite <- (Rmult_1_l (dot_slack n Q)) at 1. apply Rmult_le_compat_r; lra. }
      replace (dot_slack n Q) with (dot_slack n Q / (val eps + Q) * (val eps + Q)) by (field; lra). apply Rmult_le_compat_r; lra. }
    assert (Hd : Q - / 2 * (val eps + Q) <= val (dot x x) <= Q + / 2 * (val eps + Q)) by (revert A1; unfold Rabs; destruct (Rcase_abs _); lra).
    assert (B : 2 ^ 100 <= 2 ^ 200) by (apply Rle_pow; [lra|leb]).
    assert (FP : fin P).
    { apply add_ok; auto. rewrite (Rabs_pos_eq (val eps)) by (assert (0 < / 2 ^ 100) by (apply Rinv_0_lt_compat, pow_lt; lra); lra).
      assert (Rabs (val (dot x x)) <= 2 * 2 ^ 200) by (unfold Rabs; destruct (Rcase_abs _); lra).
      apply Rle_trans with (2 ^ 202); [replace (2 ^ 202) with (4 * 2 ^ 200) by (replace 4 with (2 ^ 2) by lra; rewrite <- pow_add; reflexivity); lra|apply Rle_pow; [lra|leb]]. }
    split; [exact FP|]. destruct (add_err eps (dot x x) FP) as (dl & Hdl & EP). fold P in EP.
    assert (U1 : uro <= / 2). { eapply Rle_trans; [apply uro_small|]. replace (/ 2) with (/ 2 ^ 1) by lra. apply pw_le. leb. }
    assert (H1 : / 2 <= 1 + dl) by (revert Hdl; unfold Rabs; destruct (Rcase_abs _); lra).
    assert (HPv : / 4 * (val eps + Q) <= val P).
    { rewrite EP. apply Rle_trans with (/ 2 * (val eps + Q) * / 2); [lra|]. apply Rmult_le_compat; lra. }
    assert (HP0 : 0 < val P) by lra.
    apply div_ok; auto; [lra|]. rewrite Rabs_pos_eq by (apply Rmult_le_pos; [lra|left; apply Rinv_0_lt_compat; exact HP0]).
    assert (I : / val P <= 4 * 2 ^ 100).
    { assert (He : / 4 * / 2 ^ 100 <= val P) by lra. replace (4 * 2 ^ 100) with (/ (/ 4 * / 2 ^ 100)) by (rewrite Rinv_mult, !Rinv_inv; ring).
      apply Rinv_le_contravar; [|exact He]. apply Rmult_lt_0_compat; [lra|apply Rinv_0_lt_compat, pow_lt; lra]. }
    apply Rle_trans with (2 * (4 * 2 ^ 100)).
    - unfold Rdiv. apply Rmult_le_compat; try lra. left. apply Rinv_0_lt_compat; exact HP0.
    - apply Rle_trans with (2 ^ 103); [replace (2 ^ 103) with (8 * 2 ^ 100) by (replace 8 with (2 ^ 3) by lra; rewrite <- pow_add; reflexivity); lra|apply Rle_pow; [lra|leb]].
  Qed.

  (** from the bound on one step to the bounds on a run *)
  Lemma sane_sums n N (WF SL : nat -> R) (DI : nat -> R) W0 beta : 0 <= beta ->
    (forall k, (k <= N)%nat -> WF k <= 2 * (W0 + INR k * (beta + 1))) -> (forall k, (k < N)%nat -> SL k <= unit_err n * (WF k + beta + 1)) ->
    (forall k, (k <= N)%nat -> DI k <= sumn k SL) ->
    forall k, (k <= N)%nat -> DI k <= INR k * (unit_err n * (2 * (W0 + INR k * (beta + 1)) + beta + 1)).
  Proof.
    intros Hb HW HS HD k Hk. eapply Rle_trans; [apply HD, Hk|]. pose proof (unit_err_nonneg n) as Ha.
    apply Rle_trans with (sumn k (fun _ => unit_err n * (2 * (W0 + INR k * (beta + 1)) + beta + 1))).
    - apply sumn_le. intros j Hj. eapply Rle_trans; [apply HS; lia|]. apply Rmult_le_compat_l; [exact Ha|].
      pose proof (HW j ltac:(lia)). assert (INR j * (beta + 1) <= INR k * (beta + 1)) by (apply Rmult_le_compat_r; [lra|apply le_INR; lia]). lra.
    - right. generalize (unit_err n * (2 * (W0 + INR k * (beta + 1)) + beta + 1)). clear. intros c. induction k as [|k IH]; [cbn; ring|]. cbn [sumn]. rewrite IH, S_INR. ring.
  Qed.
  Lemma dot_term n (WF X : rvec) B : length WF = n -> length X = n -> (Z.of_nat n <= 2 ^ 40)%Z -> norm WF <= B ->
    dot_slack n (sumn n (fun j => Rabs (nth j WF 0 * nth j X 0))) <= 2 * INR n * (uro * (B * norm X) + eta).
  Proof.
    intros L1 L2 Hn HB. pose proof (abs_sum_CS n WF X L1 L2) as C. pose proof (norm_pos X) as HX. pose proof uro_pos as Hu.
    eapply Rle_trans; [apply dot_slack_small; [lia|apply sumn_nonneg; intros; apply Rabs_pos]|].
    apply Rmult_le_compat_l; [pose proof (pos_INR n); lra|]. apply Rplus_le_compat_r, Rmult_le_compat_l; [lra|].
    eapply Rle_trans; [exact C|]. apply Rmult_le_compat_r; lra.
  Qed.
  Lemma fin_lists (oF' : obj float) (x : list (list float)) y e (w : list (list float)) : length y = length x -> length e = length x -> length w = length x ->
    (forall k, (k <= length x)%nat -> Forall fin (nth k (w ++ [o_w oF']) []) /\ ((k < length x)%nat -> fin (nth k y PrimFloat.zero) /\ fin (nth k e PrimFloat.zero))) ->
    Forall fin y /\ Forall fin e /\ Forall (Forall fin) (w ++ [o_w oF']).
  Proof.
    intros Ly Le Lw H. split; [|split]; apply Forall_forall; intros v Hv.
    - destruct (In_nth _ _ PrimFloat.zero Hv) as (k & Hk & <-). rewrite Ly in Hk. destruct (H k ltac:(lia)) as (_ & H2). apply H2, Hk.
    - destruct (In_nth _ _ PrimFloat.zero Hv) as (k & Hk & <-). rewrite Le in Hk. destruct (H k ltac:(lia)) as (_ & H2). apply H2, Hk.
    - destruct (In_nth _ _ [] Hv) as (k & Hk & <-). rewrite app_length in Hk. cbn in Hk. destruct (H k ltac:(lia)) as (H2 & _). exact H2.
  Qed.

  (** *** C89.  LMS: data of sane size (norms up to 2^100, up to 2^44 multiply-adds in the run) with mu |x_k|^2 <= 2.  The run in
      binary64 succeeds, every output, error and weight is finite (no inf, no nan), the weights stay below an explicit bound, and
      weights and outputs stay within an explicit distance of the run of the same filter in exact arithmetic. *)
  Theorem C89_LMS : forall n (oF : obj float) (oR : obj R) d x (xi De : R),
    reachable n oF -> reachable n oR -> o_ext oF = XLMS -> o_ext oR = XLMS -> o_mu oR = val (o_mu oF) -> o_w oR = map val (o_w oF) ->
    rows_of n x -> length d = length x -> x <> [] ->
    fin (o_mu oF) -> Forall fin (o_w oF) -> Forall (Forall fin) x -> Forall fin d ->
    (Z.of_nat n <= 2 ^ 40)%Z -> (Z.of_nat (length x) * (Z.of_nat n + 1) <= 2 ^ 44)%Z ->
    0 <= val (o_mu oF) <= 2 ^ 100 -> val (o_mu oF) * (xi * xi) <= 2 -> norm (map val (o_w oF)) <= 2 ^ 100 ->
    (forall u, In u x -> norm (map val u) <= xi) -> xi <= 2 ^ 100 -> (forall v, In v d -> Rabs (val v) <= De) -> De <= 2 ^ 100 ->
    exists oF' yF eF wF oR' yR eR wR,
      run d x oF = (oF', Ok (yF, eF, wF)) /\ run (map val d) (map (map val) x) oR = (oR', Ok (yR, eR, wR)) /\
      Forall fin yF /\ Forall fin eF /\ Forall (Forall fin) (wF ++ [o_w oF']) /\
      let beta := val (o_mu oF) * xi * (De + 1) in
      let size k := 2 * (norm (map val (o_w oF)) + INR k * (beta + 1)) in
      let drift k := INR k * (256 * (INR n + 1) * uro * (size k + beta + 1)) in
      (forall k, (k <= length x)%nat -> norm (map val (nth k (wF ++ [o_w oF']) [])) <= size k /\
        dist (map val (nth k (wF ++ [o_w oF']) [])) (nth k (wR ++ [o_w oR']) []) <= drift k) /\
      (forall k, (k < length x)%nat -> Rabs (val (nth k yF PrimFloat.zero) - nth k yR 0) <=
        drift k * xi + 2 * INR n * (uro * (size k * xi) + eta)).
  Proof.
    intros n oF oR d x xi De RF RR EF ER Emu Ew Hx Hl Hne Fm Fw0 Fx Fd Hn HN Hmu Hmx HW0 HX Hxi HD HDe.
    destruct (run_existsF n oF d x RF Hx Hl Hne) as (oF' & yF & eF & wF & HRF & Ly & Le & Lw). { intros ex. unfold soft_exn. rewrite EF. auto. }
    assert (HxR : rows_of n (map (map val) x)).
    { apply Forall_forall. intros r Hr. apply in_map_iff in Hr as (r' & <- & Hr). rewrite map_length. unfold rows_of in Hx. rewrite Forall_forall in Hx. apply Hx; exact Hr. }
    destruct (run_exists solveR n oR (map val d) (map (map val) x) RR HxR) as (oR' & yR & eR & wR & HRR).
    { rewrite !map_length. exact Hl. } { intros H. apply map_eq_nil in H. contradiction. } { intros ex. unfold soft_exn. rewrite ER. auto. }
    exists oF', yF, eF, wF, oR', yR, eR, wR. split; [exact HRF|]. split; [exact HRR|].
    assert (Hxi0 : 0 <= xi). { destruct x as [|x0 x']; [contradiction|]. eapply Rle_trans; [apply norm_pos|apply (HX x0 (or_introl eq_refl))]. }
    assert (HDe0 : 0 <= De). { destruct d as [|d0 d']; [destruct x; [contradiction|discriminate]|]. eapply Rle_trans; [apply Rabs_pos|apply (HD d0 (or_introl eq_refl))]. }
    set (mu := val (o_mu oF)) in *. set (beta := mu * xi * (De + 1)).
    assert (Hmx0 : 0 <= mu * xi) by (apply Rmult_le_pos; lra).
    assert (Hb : 0 <= beta <= 2 ^ 302).
    { split; [apply Rmult_le_pos; lra|]. unfold beta. apply Rle_trans with (2 ^ 100 * 2 ^ 100 * (2 * 2 ^ 100)).
      - assert (1 <= 2 ^ 100) by (apply pow_R1_Rle; lra). apply mul3; lra.
      - change (2 * 2 ^ 100) with (2 ^ 101). rewrite <- !pow_add. apply Rle_pow; [lra|leb]. }
    assert (KF : is_AP oF = false /\ is_OCNLMS oF = false /\ forall s er u, o_ext s = o_ext oF -> o_mu s = o_mu oF ->
      learning_rule er u s = (s, Ok (map (fun a => PrimFloat.mul (PrimFloat.mul ((fun _ => o_mu oF) u) a) er) u))).
    { unfold is_AP, is_OCNLMS. rewrite EF. repeat split. intros s er u Es Em. unfold learning_rule, bind, get. rewrite Es, Em. reflexivity. }
    assert (HXk : forall k, (k < length x)%nat -> norm (map val (nth k x [])) <= xi) by (intros k Hk; apply HX, nth_In, Hk).
    assert (HDk : forall k, (k < length x)%nat -> Rabs (val (nth k d PrimFloat.zero)) <= De) by (intros k Hk; apply HD, nth_In; rewrite Hl; exact Hk).
    assert (Hsq : forall k, (k < length x)%nat -> mu * normsq (map val (nth k x [])) <= 2).
    { intros k Hk. eapply Rle_trans; [|exact Hmx]. apply Rmult_le_compat_l; [lra|]. rewrite <- norm_sq. pose proof (norm_pos (map val (nth k x []))). pose proof (HXk k Hk). apply Rmult_le_compat; lra. }
    assert (HS := sane_run solve tanh exp power sum dot dot_ok n oF oF' d x yF eF wF (fun _ => o_mu oF) (fun _ => mu) (fun _ => 0) (fun _ => 0)
      (norm (map val (o_w oF))) beta (reachable_wf _ _ RF) Hx KF HRF Hn HN Fw0 (Rle_refl _) HW0 Hb). cbv zeta in HS.
    assert (HS' := fun H => HS H). clear HS.
    lapply HS'; [clear HS'; intros HS|].
    2:{ clear HS'. pose proof uro_pos. pose proof eta_pos. pose proof (pos_INR n). rewrite Forall_forall in Fx, Fd. intros k Hk.
        split; [exact Fm|]. split; [apply Fx, nth_In, Hk|]. split; [apply Fd, nth_In; rewrite Hl; exact Hk|].
        split; [split; [lra|]; apply Rle_trans with (2 ^ 100); [apply Hmu|]; apply Rle_pow; [lra|leb]|]. split; [split; [lra|]; repeat apply Rmult_le_pos; lra|].
        fold mu. rewrite Rminus_diag_eq, Rabs_R0 by reflexivity. split; [lra|]. split; [lra|]. split; [apply Hsq, Hk|].
        pose proof (HXk k Hk). pose proof (HDk k Hk). pose proof (norm_pos (map val (nth k x []))). pose proof (Rabs_pos (val (nth k d PrimFloat.zero))).
        split; [lra|]. split; [lra|]. unfold beta. apply mul3; lra. }
    destruct (fin_lists oF' x yF eF wF Ly Le Lw) as (Fy & Fe & Fw).
    { intros k Hk. destruct (HS k Hk) as (H1 & _ & H3). split; [exact H1|]. intros Hk'. destruct (H3 Hk') as (H4 & H5 & _). auto. }
    split; [exact Fy|]. split; [exact Fe|]. split; [exact Fw|]. cbv zeta.
    destruct (C79_LMS solve tanh exp power sum dot dot_ok solveR n oF oF' oR oR' d x yF eF wF yR eR wR RF RR EF ER Emu Ew Hx) as (HC & HO); auto; [|apply Hmu|].
    { intros u Hu. destruct (In_nth _ _ [] Hu) as (k & Hk & <-). split; [apply Rmult_le_pos; [apply Hmu|apply normsq_nonneg]|apply Hsq, Hk]. }
    cbv zeta in HC, HO. fold mu in HC, HO.
    assert (HW : forall k, (k <= length x)%nat -> norm (map val (nth k (wF ++ [o_w oF']) [])) <= 2 * (norm (map val (o_w oF)) + INR k * (beta + 1))) by (intros k Hk; apply HS, Hk).
    assert (HSL : forall k, (k < length x)%nat -> norm (tab n (step_slack n mu 0 (map val (nth k (wF ++ [o_w oF']) [])) (map val (nth (S k) (wF ++ [o_w oF']) [])) (map val (nth k x []))
      (val (nth k d PrimFloat.zero)) (val (nth k yF PrimFloat.zero)) (val (nth k eF PrimFloat.zero)))) <= unit_err n * (norm (map val (nth k (wF ++ [o_w oF']) [])) + beta + 1)).
    { intros k Hk. destruct (HS k ltac:(lia)) as (_ & _ & H). apply H, Hk. }
    pose proof (sane_sums n (length x) (fun k => norm (map val (nth k (wF ++ [o_w oF']) []))) _
      (fun k => sumn k (fun j => norm (tab n (step_slack n mu 0 (map val (nth j (wF ++ [o_w oF']) [])) (map val (nth (S j) (wF ++ [o_w oF']) [])) (map val (nth j x []))
      (val (nth j d PrimFloat.zero)) (val (nth j yF PrimFloat.zero)) (val (nth j eF PrimFloat.zero)))))) _ beta (proj1 Hb) HW HSL (fun k _ => Rle_refl _)) as HDr.
    unfold unit_err in HDr.
    split; [intros k Hk; split; [apply HW, Hk|]; eapply Rle_trans; [apply HC, Hk|apply HDr, Hk]|].
    intros k Hk. eapply Rle_trans; [apply HO, Hk|]. pose proof (HDr k ltac:(lia)) as H1. cbv beta in H1.
    assert (L1 : length (map val (nth k x [])) = n). { rewrite map_length. unfold rows_of in Hx. rewrite Forall_forall in Hx. apply Hx, nth_In, Hk. }
    assert (L2 : length (map val (nth k (wF ++ [o_w oF']) [])) = n).
    { rewrite map_length. destruct (run_steps n oF oF' d x yF eF wF k (reachable_wf _ _ RF) Hx HRF Hk) as (s & s' & Hs & _ & _ & _ & _ & _ & Hw & _). rewrite <- Hw. apply Hs. }
    pose proof (dot_term n _ _ _ L2 L1 Hn (HW k ltac:(lia))) as H2. pose proof (HXk k Hk) as H3. pose proof (norm_pos (map val (nth k x []))) as H4.
    apply Rplus_le_compat.
    - apply Rmult_le_compat; auto. apply sumn_nonneg. intros. apply norm_pos.
    - eapply Rle_trans; [exact H2|]. apply Rmult_le_compat_l; [pose proof (pos_INR n); lra|]. apply Rplus_le_compat_r, Rmult_le_compat_l; [pose proof uro_pos; lra|].
      apply Rmult_le_compat_l; [|exact H3]. eapply Rle_trans; [apply norm_pos|apply (HW k ltac:(lia))].
  Qed.

  (** NLMS: the same for 0 <= mu <= 2 and 2^-100 <= eps <= 2^100, whatever the directions of the inputs; the weights move by at
      most mu / (2 sqrt eps) * (|d| + 1) per sample *)
  Theorem C89_NLMS : forall n (oF : obj float) (oR : obj R) eps d x (xi De : R),
    reachable n oF -> reachable n oR -> o_ext oF = XNLMS eps -> o_ext oR = XNLMS (val eps) -> o_mu oR = val (o_mu oF) -> o_w oR = map val (o_w oF) ->
    rows_of n x -> length d = length x -> x <> [] ->
    fin (o_mu oF) -> fin eps -> Forall fin (o_w oF) -> Forall (Forall fin) x -> Forall fin d ->
    (Z.of_nat n <= 2 ^ 40)%Z -> (Z.of_nat (length x) * (Z.of_nat n + 1) <= 2 ^ 44)%Z ->
    0 <= val (o_mu oF) <= 2 -> / 2 ^ 100 <= val eps <= 2 ^ 100 -> norm (map val (o_w oF)) <= 2 ^ 100 ->
    (forall u, In u x -> norm (map val u) <= xi) -> xi <= 2 ^ 100 -> (forall v, In v d -> Rabs (val v) <= De) -> De <= 2 ^ 100 ->
    exists oF' yF eF wF oR' yR eR wR,
      run d x oF = (oF', Ok (yF, eF, wF)) /\ run (map val d) (map (map val) x) oR = (oR', Ok (yR, eR, wR)) /\
      Forall fin yF /\ Forall fin eF /\ Forall (Forall fin) (wF ++ [o_w oF']) /\
      let beta := val (o_mu oF) / (2 * sqrt (val eps)) * (De + 1) in
      let size k := 2 * (norm (map val (o_w oF)) + INR k * (beta + 1)) in
      let drift k := INR k * (256 * (INR n + 1) * uro * (size k + beta + 1)) in
      (forall k, (k <= length x)%nat -> norm (map val (nth k (wF ++ [o_w oF']) [])) <= size k /\
        dist (map val (nth k (wF ++ [o_w oF']) [])) (nth k (wR ++ [o_w oR']) []) <= drift k) /\
      (forall k, (k < length x)%nat -> Rabs (val (nth k yF PrimFloat.zero) - nth k yR 0) <=
        drift k * xi + 2 * INR n * (uro * (size k * xi) + eta)).
  Proof.
    intros n oF oR eps d x xi De RF RR EF ER Emu Ew Hx Hl Hne Fm Fp Fw0 Fx Fd Hn HN Hmu Heps HW0 HX Hxi HD HDe.
    destruct (run_existsF n oF d x RF Hx Hl Hne) as (oF' & yF & eF & wF & HRF & Ly & Le & Lw). { intros ex. unfold soft_exn. rewrite EF. auto. }
    assert (HxR : rows_of n (map (map val) x)).
    { apply Forall_forall. intros r Hr. apply in_map_iff in Hr as (r' & <- & Hr). rewrite map_length. unfold rows_of in Hx. rewrite Forall_forall in Hx. apply Hx; exact Hr. }
    destruct (run_exists solveR n oR (map val d) (map (map val) x) RR HxR) as (oR' & yR & eR & wR & HRR).
    { rewrite !map_length. exact Hl. } { intros H. apply map_eq_nil in H. contradiction. } { intros ex. unfold soft_exn. rewrite ER. auto. }
    exists oF', yF, eF, wF, oR', yR, eR, wR. split; [exact HRF|]. split; [exact HRR|].
    assert (Hxi0 : 0 <= xi). { destruct x as [|x0 x']; [contradiction|]. eapply Rle_trans; [apply norm_pos|apply (HX x0 (or_introl eq_refl))]. }
    assert (HDe0 : 0 <= De). { destruct d as [|d0 d']; [destruct x; [contradiction|discriminate]|]. eapply Rle_trans; [apply Rabs_pos|apply (HD d0 (or_introl eq_refl))]. }
    set (mu := val (o_mu oF)) in *. set (sq := sqrt (val eps)).
    assert (Ep0 : 0 < / 2 ^ 100) by (apply Rinv_0_lt_compat, pow_lt; lra).
    assert (Hsq0 : 0 < sq) by (apply sqrt_lt_R0; lra). assert (Hsqs : sq * sq = val eps) by (apply sqrt_sqrt; lra).
    assert (Hsql : / 2 ^ 50 <= sq).
    { unfold sq. rewrite <- (sqrt_square (/ 2 ^ 50)) by (left; apply Rinv_0_lt_compat, pow_lt; lra). apply sqrt_le_1_alt. rewrite <- Rinv_mult, <- pow_add. apply Heps. }
    assert (Hcoef : 0 <= mu / (2 * sq) <= 2 ^ 50).
    { split; [apply Rmult_le_pos; [lra|left; apply Rinv_0_lt_compat; lra]|]. apply Rmult_le_reg_r with (2 * sq); [lra|]. unfold Rdiv. rewrite Rmult_assoc, Rinv_l, Rmult_1_r by lra.
      assert (2 ^ 50 * / 2 ^ 50 <= 2 ^ 50 * sq) by (apply Rmult_le_compat_l; [left; apply pow_lt; lra|exact Hsql]). rewrite Rinv_r in H by (apply pow_nonzero; lra). lra. }
    set (beta := mu / (2 * sq) * (De + 1)).
    assert (Hb : 0 <= beta <= 2 ^ 302).
    { split; [apply Rmult_le_pos; lra|]. unfold beta. apply Rle_trans with (2 ^ 50 * (2 * 2 ^ 100)).
      - assert (1 <= 2 ^ 100) by (apply pow_R1_Rle; lra). apply Rmult_le_compat; lra.
      - change (2 * 2 ^ 100) with (2 ^ 101). rewrite <- !pow_add. apply Rle_pow; [lra|leb]. }
    set (cF := fun u : list float => PrimFloat.div (o_mu oF) (PrimFloat.add eps (dot u u))).
    assert (KF : is_AP oF = false /\ is_OCNLMS oF = false /\ forall s er u, o_ext s = o_ext oF -> o_mu s = o_mu oF ->
      learning_rule er u s = (s, Ok (map (fun a => PrimFloat.mul (PrimFloat.mul (cF u) a) er) u))).
    { unfold is_AP, is_OCNLMS. rewrite EF. repeat split. intros s er u Es Em. unfold learning_rule, bind, get. rewrite Es, Em. reflexivity. }
    assert (HXk : forall k, (k < length x)%nat -> norm (map val (nth k x [])) <= xi) by (intros k Hk; apply HX, nth_In, Hk).
    assert (HDk : forall k, (k < length x)%nat -> Rabs (val (nth k d PrimFloat.zero)) <= De) by (intros k Hk; apply HD, nth_In; rewrite Hl; exact Hk).
    assert (Lx : forall k, (k < length x)%nat -> length (nth k x []) = n). { intros k Hk. unfold rows_of in Hx. rewrite Forall_forall in Hx. apply Hx, nth_In, Hk. }
    assert (Fxk : forall k, (k < length x)%nat -> Forall fin (nth k x [])). { intros k Hk. rewrite Forall_forall in Fx. apply Fx, nth_In, Hk. }
    set (G := fun k : nat => mu / (val eps + normsq (map val (nth k x [])))).
    set (q := fun k : nat => let kp := kappa n (val eps) (map val (nth k x [])) in (kp + uro) / (1 - kp)).
    set (rho := fun k : nat => rate_slack n mu (val eps) (map val (nth k x []))).
    assert (HG : forall k, (k < length x)%nat -> 0 <= G k <= 2 ^ 110 /\ G k * normsq (map val (nth k x [])) <= 2 /\ G k * norm (map val (nth k x [])) <= mu / (2 * sq)).
    { intros k Hk. unfold G. set (v := map val (nth k x [])). pose proof (normsq_nonneg v) as HQ. set (P := val eps + normsq v). assert (HP : 0 < P) by (unfold P; lra).
      assert (HPi : 0 < / P) by (apply Rinv_0_lt_compat; exact HP). unfold Rdiv.
      split; [split; [apply Rmult_le_pos; lra|]|split].
      - apply Rle_trans with (2 * 2 ^ 100); [|change (2 * 2 ^ 100) with (2 ^ 101); apply Rle_pow; [lra|leb]]. apply Rmult_le_compat; try lra.
        replace (2 ^ 100) with (/ / 2 ^ 100) by apply Rinv_inv. apply Rinv_le_contravar; [exact Ep0|unfold P; lra].
      - rewrite Rmult_assoc. assert (/ P * normsq v <= 1). { apply Rmult_le_reg_l with P; [exact HP|]. rewrite <- Rmult_assoc, Rinv_r by lra. unfold P. lra. }
        assert (0 <= / P * normsq v) by (apply Rmult_le_pos; lra). apply Rle_trans with (2 * 1); [|lra]. apply Rmult_le_compat; lra.
      - rewrite Rmult_assoc. apply Rmult_le_compat_l; [lra|]. apply Rmult_le_reg_l with P; [exact HP|]. rewrite <- Rmult_assoc, Rinv_r, Rmult_1_l by lra.
        apply Rmult_le_reg_r with (2 * sq); [lra|]. rewrite Rmult_assoc, Rinv_l, Rmult_1_r by lra. unfold P. rewrite <- norm_sq, <- Hsqs. set (nv := norm v).
        assert (0 <= (nv - sq) * (nv - sq)) by apply Rle_0_sqr. lra. }
    assert (Hrow : forall k, (k < length x)%nat -> fin (PrimFloat.add eps (dot (nth k x []) (nth k x []))) /\ fin (cF (nth k x []))).
    { intros k Hk. apply (nlms_rate_fin n (o_mu oF) eps (nth k x [])); auto. eapply Rle_trans; [apply HXk, Hk|exact Hxi]. }
    assert (HS := sane_run solve tanh exp power sum dot dot_ok n oF oF' d x yF eF wF cF G q rho
      (norm (map val (o_w oF))) beta (reachable_wf _ _ RF) Hx KF HRF Hn HN Fw0 (Rle_refl _) HW0 Hb). cbv zeta in HS.
    lapply HS; [clear HS; intros HS|].
    2:{ clear HS. intros k Hk. destruct (HG k Hk) as (G1 & G2 & G3). destruct (nlms_q n (val eps) (map val (nth k x [])) Hn (proj1 Heps)) as (Q1 & Q2). cbv zeta in Q1, Q2.
        destruct (Hrow k Hk) as (R1 & R2).
        split; [exact R2|]. split; [apply Fxk, Hk|]. split; [rewrite Forall_forall in Fd; apply Fd, nth_In; rewrite Hl; exact Hk|].
        split; [exact G1|]. split; [exact Q2|]. split.
        { unfold rho, G, cF. apply (nlms_rate dot dot_ok n (o_mu oF) eps (nth k x [])); auto; [apply Hmu| |lra].
          pose proof (normsq_nonneg (map val (nth k x []))). lra. }
        split; [right; reflexivity|]. split; [exact G2|].
        pose proof (HXk k Hk). pose proof (HDk k Hk). pose proof (Rabs_pos (val (nth k d PrimFloat.zero))).
        split; [lra|]. split; [lra|]. unfold beta. apply Rmult_le_compat; try lra. apply Rmult_le_pos; [lra|apply norm_pos]. }
    destruct (fin_lists oF' x yF eF wF Ly Le Lw) as (Fy & Fe & Fw).
    { intros k Hk. destruct (HS k Hk) as (H1 & _ & H3). split; [exact H1|]. intros Hk'. destruct (H3 Hk') as (H4 & H5 & _). auto. }
    split; [exact Fy|]. split; [exact Fe|]. split; [exact Fw|]. cbv zeta.
    destruct (C79_NLMS solve tanh exp power sum dot dot_ok solveR n oF oF' oR oR' eps d x yF eF wF yR eR wR RF RR EF ER Emu Ew Hx Hmu) as (HC & HO); auto; [lra| |].
    { intros u Hu. destruct (In_nth _ _ [] Hu) as (k & Hk & <-). split; [apply Hrow, Hk|].
      destruct (nlms_q n (val eps) (map val (nth k x [])) Hn (proj1 Heps)) as (Q1 & _). cbv zeta in Q1. lra. }
    cbv zeta in HC, HO. fold mu in HC, HO.
    assert (HW : forall k, (k <= length x)%nat -> norm (map val (nth k (wF ++ [o_w oF']) [])) <= 2 * (norm (map val (o_w oF)) + INR k * (beta + 1))) by (intros k Hk; apply HS, Hk).
    assert (HSL : forall k, (k < length x)%nat -> norm (tab n (step_slack n (G k) (rho k) (map val (nth k (wF ++ [o_w oF']) [])) (map val (nth (S k) (wF ++ [o_w oF']) [])) (map val (nth k x []))
      (val (nth k d PrimFloat.zero)) (val (nth k yF PrimFloat.zero)) (val (nth k eF PrimFloat.zero)))) <= unit_err n * (norm (map val (nth k (wF ++ [o_w oF']) [])) + beta + 1)).
    { intros k Hk. destruct (HS k ltac:(lia)) as (_ & _ & H). apply H, Hk. }
    pose proof (sane_sums n (length x) (fun k => norm (map val (nth k (wF ++ [o_w oF']) []))) _
      (fun k => sumn k (fun j => norm (tab n (step_slack n (G j) (rho j) (map val (nth j (wF ++ [o_w oF']) [])) (map val (nth (S j) (wF ++ [o_w oF']) [])) (map val (nth j x []))
      (val (nth j d PrimFloat.zero)) (val (nth j yF PrimFloat.zero)) (val (nth j eF PrimFloat.zero)))))) _ beta (proj1 Hb) HW HSL (fun k _ => Rle_refl _)) as HDr.
    unfold unit_err in HDr.
    split; [intros k Hk; split; [apply HW, Hk|]; eapply Rle_trans; [apply HC, Hk|apply HDr, Hk]|].
    intros k Hk. eapply Rle_trans; [apply HO, Hk|]. pose proof (HDr k ltac:(lia)) as H1. cbv beta in H1.
    assert (L1 : length (map val (nth k x [])) = n) by (rewrite map_length; apply Lx, Hk).
    assert (L2 : length (map val (nth k (wF ++ [o_w oF']) [])) = n).
    { rewrite map_length. destruct (run_steps n oF oF' d x yF eF wF k (reachable_wf _ _ RF) Hx HRF Hk) as (s & s' & Hs & _ & _ & _ & _ & _ & Hw & _). rewrite <- Hw. apply Hs. }
    pose proof (dot_term n _ _ _ L2 L1 Hn (HW k ltac:(lia))) as H2. pose proof (HXk k Hk) as H3. pose proof (norm_pos (map val (nth k x []))) as H4.
    apply Rplus_le_compat.
    - apply Rmult_le_compat; auto. apply sumn_nonneg. intros. apply norm_pos.
    - eapply Rle_trans; [exact H2|]. apply Rmult_le_compat_l; [pose proof (pos_INR n); lra|]. apply Rplus_le_compat_r, Rmult_le_compat_l; [pose proof uro_pos; lra|].
      apply Rmult_le_compat_l; [|exact H3]. eapply Rle_trans; [apply norm_pos|apply (HW k ltac:(lia))].
  Qed.
End C89.

(** a concrete case: the filter of C78 and C79 (NLMS, mu = eps = 0.1, two taps, three samples), and LMS with the same mu *)
Example C89_hypotheses : forall solveR,
  let NR := RNum solveR in
  let oR := mkObj [0; 0] 2 (val tenth) None (XNLMS (val tenth)) in
  let lF := mkObj [PrimFloat.zero; PrimFloat.zero] 2 tenth None XLMS in let lR := mkObj [0; 0] 2 (val tenth) None XLMS in
  (forall u v, length u = length v -> evaluates (combine u v) (plain_dot u v)) /\
  @reachable _ round_num 2 round_filter /\ @reachable _ NR 2 oR /\ @reachable _ round_num 2 lF /\ @reachable _ NR 2 lR /\
  o_w oR = map val (o_w round_filter) /\ o_mu oR = val (o_mu round_filter) /\
  rows_of 2 round_x /\ length round_d = length round_x /\ round_x <> [] /\
  fin tenth /\ Forall fin (o_w round_filter) /\ Forall (Forall fin) round_x /\ Forall fin round_d /\
  (Z.of_nat 2 <= 2 ^ 40)%Z /\ (Z.of_nat (length round_x) * (Z.of_nat 2 + 1) <= 2 ^ 44)%Z /\
  0 <= val tenth <= 2 /\ / 2 ^ 100 <= val tenth <= 2 ^ 100 /\ val tenth * (3 * 3) <= 2 /\ norm (map val (o_w round_filter)) <= 2 ^ 100 /\
  (forall u, In u round_x -> norm (map val u) <= 3) /\ 3 <= 2 ^ 100 /\ (forall v, In v round_d -> Rabs (val v) <= 2) /\ 2 <= 2 ^ 100.
Proof.
  intros solveR NR oR lF lR.
  assert (VT : val tenth = Q2R (valQ tenth)) by apply val_Q.
  assert (T : / 11 <= val tenth <= / 9).
  { rewrite VT. split; [replace (/ 11) with (Q2R (1 # 11)) by (unfold Q2R; cbn; lra)|replace (/ 9) with (Q2R (1 # 9)) by (unfold Q2R; cbn; lra)];
      apply Qle_Rle; vm_compute; discriminate. }
  assert (V1 : val PrimFloat.one = 1). { unfold val. change (Prim2SF PrimFloat.one) with (S754_finite false 4503599627370496 (-52)). cbn [powerRZ]. change (Pos.to_nat 52) with 52%nat. field. }
  assert (V2 : val PrimFloat.two = 2). { unfold val. change (Prim2SF PrimFloat.two) with (S754_finite false 4503599627370496 (-51)). cbn [powerRZ]. change (Pos.to_nat 51) with 51%nat. field. }
  assert (B : 4 <= 2 ^ 100). { replace 4 with (2 ^ 2) by lra. apply Rle_pow; [lra|leb]. }
  assert (N : forall a b, a * a + b * b <= 9 -> norm [a; b] <= 3).
  { intros a b H. unfold norm. replace 3 with (sqrt 9) by (replace 9 with (3 * 3) by lra; apply sqrt_square; lra). apply sqrt_le_1_alt.
    replace (normsq [a; b]) with (a * a + b * b) by (unfold normsq; cbn; ring). exact H. }
  split; [exact plain_dot_ok|]. split; [exact round_reachable|].
  split; [apply (fresh2_reachable solveR (val tenth) (Some (val tenth)) None None KNLMS); reflexivity|].
  split. { apply (@reach_new _ round_num 2 (fun k => repeat PrimFloat.zero k) KLMS (mkKw (Some 2%Z) (Some tenth) (Some (WStr "zeros")) None None None None None None None None false)); [intros k; apply repeat_length|split; discriminate|reflexivity|reflexivity]. }
  split; [apply (fresh2_reachable solveR (val tenth) None None None KLMS); reflexivity|].
  split; [reflexivity|]. split; [reflexivity|]. split; [repeat constructor|]. split; [reflexivity|]. split; [discriminate|].
  split; [apply finb_ok; vm_compute; reflexivity|]. split; [apply finb_all; vm_compute; reflexivity|].
  split; [repeat (constructor; [apply finb_all; vm_compute; reflexivity|]); constructor|]. split; [apply finb_all; vm_compute; reflexivity|].
  split; [vm_compute; discriminate|]. split; [vm_compute; discriminate|]. split; [lra|]. split.
  { split; [|lra]. apply Rle_trans with (/ 2 ^ 4); [apply pw_le; leb|lra]. }
  split; [lra|]. split. { apply Rle_trans with 3; [|lra]. apply N. change (val PrimFloat.zero) with 0. lra. }
  split; [|split; [lra|split; [|lra]]].
  - intros u Hu. destruct Hu as [<-|[<-|[<-|[]]]]; cbn [map]; apply N; rewrite ?V1, ?V2; nra.
  - intros v Hv. destruct Hv as [<-|[<-|[<-|[]]]]; rewrite ?V1, ?V2; apply Rabs_le; lra.
Qed.
