(** C88: RLS and silence.  While the inputs are zero the weights do not move, but the matrix R of the filter is divided by mu at
    every sample; in IEEE binary64 it overflows after finitely many samples of silence and turns all weights into nan. *)
From Coq Require Import ZArith QArith Qreals Reals Lra Psatz Permutation Uint63 FloatOps FloatAxioms SpecFloat.
From Coq Require PrimFloat.
From Flocq Require Import Core BinarySingleNaN Relative.
From Flocq Require IEEE754.PrimFloat.
From Verif Require Import Py Num NumF Numpy Filters Registry Spec StructProofs RunProofs Reach Steps RMat RVec RFilter FloatErr PropsRound.
From Verif Require PropsOCNLMSF PropsNan.
Open Scope R_scope.
#[local] Existing Instance Flocq.IEEE754.PrimFloat.Hprec.
#[local] Existing Instance Flocq.IEEE754.PrimFloat.Hmax.
#[local] Notation bin := Flocq.IEEE754.PrimFloat.Prim2B.
#[local] Notation nan := PrimFloat.nan.

(** ** Specification *)
(** +0 or -0 *)
Definition is_zero (a : float) : Prop := PrimFloat.eqb a PrimFloat.zero = true.
(** samples of silence *)
Definition silent (x : list (list float)) : Prop := Forall (Forall is_zero) x.
(** entry (i, j) of the attribute R of an RLS filter *)
Definition R_entry {T} (dflt : T) (o : obj T) (i j : nat) : T :=
  match o_ext o with XRLS _ M => nth j (nth i M []) dflt | _ => dflt end.

(** ** binary64 facts *)
Definition zr (a : float) : Prop := match Prim2SF a with S754_zero _ => True | _ => False end.
Lemma zr_spec a : is_zero a <-> zr a.
Proof.
  unfold is_zero, zr. rewrite FloatAxioms.eqb_spec. change (Prim2SF PrimFloat.zero) with (S754_zero false).
  destruct (Prim2SF a) as [s|s| |s m e]; [split; [intros _; exact I|reflexivity]|destruct s|idtac|destruct s]; cbn; split; try discriminate; intros [].
Qed.
Lemma zr_fin a : zr a -> fin a.
Proof. unfold zr, fin. destruct (Prim2SF a); auto. Qed.
Lemma zr_val a : zr a -> val a = 0.
Proof. unfold zr, val. destruct (Prim2SF a); auto. intros []. Qed.
Lemma mul_zr_r a b : fin a -> zr b -> zr (PrimFloat.mul a b).
Proof. unfold zr, fin. rewrite mul_spec. destruct (Prim2SF a), (Prim2SF b); cbn; tauto. Qed.
Lemma mul_zr_l a b : zr a -> fin b -> zr (PrimFloat.mul a b).
Proof. unfold zr, fin. rewrite mul_spec. destruct (Prim2SF a), (Prim2SF b); cbn; tauto. Qed.
Lemma add_zr a b : zr a -> zr b -> zr (PrimFloat.add a b).
Proof. unfold zr. rewrite add_spec. destruct (Prim2SF a) as [s| | |], (Prim2SF b) as [s'| | |]; cbn; try tauto. destruct s, s'; cbn; auto. Qed.
Lemma mul_nf_r a b : ~ fin a -> zr b -> PrimFloat.mul a b = nan.
Proof.
  unfold zr, fin. intros Ha Hb. apply PropsOCNLMSF.is_nan_SF. rewrite mul_spec.
  destruct (Prim2SF a), (Prim2SF b); cbn in *; auto; tauto.
Qed.
Lemma mul_nf_l a b : zr a -> ~ fin b -> PrimFloat.mul a b = nan.
Proof.
  unfold zr, fin. intros Ha Hb. apply PropsOCNLMSF.is_nan_SF. rewrite mul_spec.
  destruct (Prim2SF a), (Prim2SF b); cbn in *; auto; tauto.
Qed.
Lemma nan_not_fin : ~ fin nan.
Proof. unfold fin. rewrite PropsOCNLMSF.nan_SF. auto. Qed.
Lemma div_nan_r a : PrimFloat.div a nan = nan.
Proof. apply PropsOCNLMSF.is_nan_SF. rewrite div_spec, PropsOCNLMSF.nan_SF. destruct (Prim2SF a); reflexivity. Qed.
(** equal up to the sign of a zero *)
Definition eqz (a b : float) : Prop := a = b \/ zr a /\ zr b.
Lemma eqz_val a b : eqz a b -> val a = val b.
Proof. intros [->|(H1 & H2)]; [reflexivity|rewrite !zr_val; auto]. Qed.
Lemma eqz_fin a b : eqz a b -> fin a -> fin b.
Proof. intros [->|(H1 & H2)] H; [exact H|apply zr_fin, H2]. Qed.
Lemma SF_inj a b : Prim2SF a = Prim2SF b -> a = b.
Proof. apply Prim2SF_inj. Qed.
Lemma sub_zr a z : zr z -> eqz (PrimFloat.sub a z) a.
Proof.
  unfold zr, eqz. intros H. destruct (Prim2SF a) as [s|s| |s m e] eqn:E; destruct (Prim2SF z) as [s'| | |] eqn:Ez; try contradiction.
  - right. unfold zr. rewrite sub_spec, E, Ez. cbn. destruct s, s'; cbn; auto.
  - left. apply SF_inj. rewrite sub_spec, E, Ez. reflexivity.
  - left. apply SF_inj. rewrite sub_spec, E, Ez. reflexivity.
  - left. apply SF_inj. rewrite sub_spec, E, Ez. reflexivity.
Qed.
Lemma add_zr_r a z : zr z -> eqz (PrimFloat.add a z) a.
Proof.
  unfold zr, eqz. intros H. destruct (Prim2SF a) as [s|s| |s m e] eqn:E; destruct (Prim2SF z) as [s'| | |] eqn:Ez; try contradiction.
  - right. unfold zr. rewrite add_spec, E, Ez. cbn. destruct s, s'; cbn; auto.
  - left. apply SF_inj. rewrite add_spec, E, Ez. reflexivity.
  - left. apply SF_inj. rewrite add_spec, E, Ez. reflexivity.
  - left. apply SF_inj. rewrite add_spec, E, Ez. reflexivity.
Qed.
Lemma div_zr z b : zr z -> fin b -> ~ zr b -> zr (PrimFloat.div z b).
Proof. unfold zr, fin. rewrite div_spec. destruct (Prim2SF z), (Prim2SF b); cbn; tauto. Qed.

(** ** inner products with zeros, in any order of evaluation *)
Lemma zr_B a : zr a <-> exists s, bin a = B754_zero s.
Proof.
  unfold zr. rewrite <- Flocq.IEEE754.PrimFloat.B2SF_Prim2B. destruct (bin a) as [s|s| |s m e Hm]; cbn; split; try tauto; try (intros (? & E); discriminate).
  intros _. exists s. reflexivity.
Qed.
Lemma nan_B a : a = nan <-> bin a = B754_nan.
Proof.
  split; [intros ->; reflexivity|]. intros H. apply PropsOCNLMSF.is_nan_SF. rewrite <- Flocq.IEEE754.PrimFloat.B2SF_Prim2B, H. reflexivity.
Qed.
(** factors whose product is zero; whose product is nan *)
Definition zprod (p : float * float) : Prop := (fin (fst p) /\ zr (snd p)) \/ (zr (fst p) /\ fin (snd p)).
Definition nprod (p : float * float) : Prop := (~ fin (fst p) /\ zr (snd p)) \/ (zr (fst p) /\ ~ fin (snd p)) \/ fst p = nan \/ snd p = nan.
Lemma zprod_mul a b : zprod (a, b) -> zr (PrimFloat.mul a b).
Proof. intros [(H1 & H2)|(H1 & H2)]; cbn in *; [apply mul_zr_r|apply mul_zr_l]; auto. Qed.
Lemma nprod_mul a b : nprod (a, b) -> PrimFloat.mul a b = nan.
Proof.
  intros [(H1 & H2)|[(H1 & H2)|[H|H]]]; cbn in *; [apply mul_nf_r|apply mul_nf_l| |]; auto; rewrite H;
    [apply PropsOCNLMSF.mul_nan_l|apply PropsOCNLMSF.mul_nan_r].
Qed.
Lemma fma_zr a b r s : fused a b r s -> zprod (a, b) -> zr r -> zr s.
Proof.
  intros E HP Hr. apply zr_B in Hr as (sr & Hr). apply zr_B. unfold fused in E. rewrite Hr in E. rewrite E.
  destruct HP as [(H1 & H2)|(H1 & H2)]; cbn in H1, H2.
  - apply zr_B in H2 as (sb & ->). rewrite fin_B in H1. destruct (bin a); try discriminate; cbn; eauto.
  - apply zr_B in H1 as (sa & ->). rewrite fin_B in H2. destruct (bin b); try discriminate; cbn; eauto.
Qed.
Lemma fma_nan a b r s : fused a b r s -> nprod (a, b) \/ r = nan -> s = nan.
Proof.
  intros E H. apply nan_B. unfold fused in E. rewrite E.
  destruct H as [[(H1 & H2)|[(H1 & H2)|[H|H]]]|H]; cbn [fst snd] in *.
  - apply zr_B in H2 as (sb & ->). rewrite fin_B in H1. destruct (bin a); cbn in *; try reflexivity; exfalso; apply H1; reflexivity.
  - apply zr_B in H1 as (sa & ->). rewrite fin_B in H2. destruct (bin b); cbn in *; try reflexivity; exfalso; apply H2; reflexivity.
  - apply nan_B in H. rewrite H. reflexivity.
  - apply nan_B in H. rewrite H. destruct (bin a); reflexivity.
  - apply nan_B in H. rewrite H. destruct (bin a), (bin b); reflexivity.
Qed.
Lemma ev_zr l r : evaluates l r -> Forall zprod l -> zr r.
Proof.
  induction 1 as [|a b|l1 l2 r1 r2 _ IH1 _ IH2|a b l r s _ IH Hf|l l' r HP _ IH]; intros HF.
  - exact I.
  - apply zprod_mul. exact (Forall_inv HF).
  - apply Forall_app in HF as (F1 & F2). apply add_zr; auto.
  - eapply fma_zr; [exact Hf|exact (Forall_inv HF)|apply IH; exact (Forall_inv_tail HF)].
  - apply IH. eapply Permutation_Forall; [apply Permutation_sym, HP|exact HF].
Qed.
Lemma ev_nan l r : evaluates l r -> Exists nprod l -> r = nan.
Proof.
  induction 1 as [|a b|l1 l2 r1 r2 _ IH1 _ IH2|a b l r s _ IH Hf|l l' r HP _ IH]; intros HF.
  - inversion HF.
  - apply Exists_cons in HF as [H|H]; [apply nprod_mul, H|inversion H].
  - apply Exists_app in HF as [H|H]; [rewrite IH1 by exact H; apply PropsOCNLMSF.add_nan_l|rewrite IH2 by exact H; apply PropsOCNLMSF.add_nan_r].
  - apply Exists_cons in HF as [H|H]; eapply fma_nan; eauto.
  - apply IH. apply Exists_exists in HF as (p & Hp & Hn). apply Exists_exists. exists p. split; [|exact Hn].
    eapply Permutation_in; [apply Permutation_sym, HP|exact Hp].
Qed.

(** ** size of products *)
(** infinite, or at least m in magnitude *)
Definition atleast (m : R) (r : float) : Prop := (exists s, Prim2SF r = S754_infinity s) \/ (fin r /\ m <= Rabs (val r)).
Lemma atleast_le m m' r : m' <= m -> atleast m r -> atleast m' r.
Proof. intros H [Hi|(H1 & H2)]; [left; exact Hi|right; split; [exact H1|lra]]. Qed.
Lemma fin_small a : fin a -> Rabs (val a) < 2 ^ 1024.
Proof.
  intros H. rewrite fin_B in H. rewrite val_B. pose proof (abs_B2R_lt_emax FloatOps.prec FloatOps.emax (bin a)) as Hb.
  eapply Rlt_le_trans; [exact Hb|]. right. change FloatOps.emax with (Z.of_nat 1024). rewrite bpow_powerRZ, <- pow_powerRZ. reflexivity.
Qed.
Lemma atleast_inf m r : 2 ^ 1024 <= m -> atleast m r -> ~ fin r.
Proof. intros H [(s & E)|(H1 & H2)] Hf; [unfold fin in Hf; rewrite E in Hf; exact Hf|]. pose proof (fin_small r Hf). lra. Qed.

(** rounding loses at most the factor 1 - 2^-53 in the normal range *)
Lemma rnd_low z : / 2 ^ 1022 <= Rabs z -> Rabs z * (1 - uro) <= Rabs (rnd z).
Proof.
  intros Hz.
  destruct (relative_error_N_FLT_ex radix2 (SpecFloat.emin FloatOps.prec FloatOps.emax) FloatOps.prec eq_refl (fun x => negb (Z.even x)) z) as (d & Hd & E).
  - eapply Rle_trans; [|exact Hz]. right. change (SpecFloat.emin FloatOps.prec FloatOps.emax + FloatOps.prec - 1)%Z with (- Z.of_nat 1022)%Z.
    rewrite bpow_opp, bpow_powerRZ, <- pow_powerRZ. reflexivity.
  - change (Rabs z * (1 - uro) <= Rabs (round radix2 (SpecFloat.fexp FloatOps.prec FloatOps.emax) (round_mode mode_NE) z)).
    match type of E with ?l = _ => change (rnd z) with l end. rewrite E, Rabs_mult. apply Rmult_le_compat_l; [apply Rabs_pos|].
    assert (Hd' : Rabs d <= uro) by (rewrite uro_bpow; exact Hd).
    pose proof (Rabs_triang_inv 1 (- d)) as H. rewrite Rabs_Ropp, Rabs_R1 in H. replace (1 - - d) with (1 + d) in H by ring. lra.
Qed.
Lemma mul_atleast c0 m c r : 1 <= c0 -> / 2 ^ 1022 <= m -> atleast c0 c -> atleast m r -> atleast (c0 * (1 - uro) * m) (PrimFloat.mul c r).
Proof.
  intros Hc0 Hm Hc Hr.
  assert (P : 0 < / 2 ^ 1022) by (apply Rinv_0_lt_compat, pow_lt; lra).
  assert (NZ : forall a t, 0 < t -> fin a -> t <= Rabs (val a) -> exists s m0 e, Prim2SF a = S754_finite s m0 e).
  { intros a t Ht Fa Ha. unfold fin in Fa. unfold val in Ha. destruct (Prim2SF a); try contradiction; eauto. rewrite Rabs_R0 in Ha. lra. }
  destruct Hc as [(sc & Ec)|(Fc & Hc)], Hr as [(sr & Er)|(Fr & Hr)].
  - left. rewrite mul_spec, Ec, Er. cbn. eauto.
  - left. destruct (NZ r m ltac:(lra) Fr Hr) as (s & m0 & e & E). rewrite mul_spec, Ec, E. cbn. eauto.
  - left. destruct (NZ c c0 ltac:(lra) Fc Hc) as (s & m0 & e & E). rewrite mul_spec, Er, E. cbn. eauto.
  - destruct (Rlt_le_dec (Rabs (rnd (val c * val r))) (2 ^ 1024)) as [HL|HG].
    + right. pose proof (Bmult_correct FloatOps.prec FloatOps.emax Flocq.IEEE754.PrimFloat.Hprec Flocq.IEEE754.PrimFloat.Hmax mode_NE (bin c) (bin r)) as C.
      rewrite <- !val_B in C. rewrite Rlt_bool_true in C.
      2:{ eapply Rlt_le_trans; [exact HL|]. right. change FloatOps.emax with (Z.of_nat 1024). rewrite bpow_powerRZ, <- pow_powerRZ. reflexivity. }
      destruct C as (C1 & C2 & _). rewrite fin_B, val_B, Flocq.IEEE754.PrimFloat.mul_equiv. split.
      * rewrite C2. apply fin_B in Fc, Fr. rewrite Fc, Fr. reflexivity.
      * rewrite C1. assert (Hp : m <= Rabs (val c * val r)).
        { rewrite Rabs_mult. rewrite <- (Rmult_1_l m). apply Rmult_le_compat; lra. }
        eapply Rle_trans; [|apply rnd_low; lra]. rewrite Rabs_mult. pose proof uro_pos.
        assert (uro <= 1). { unfold uro. rewrite <- Rinv_1. apply Rinv_le_contravar; [lra|]. apply pow_R1_Rle. lra. }
        replace (c0 * (1 - uro) * m) with (c0 * m * (1 - uro)) by ring. apply Rmult_le_compat_r; [lra|]. apply Rmult_le_compat; lra.
    + left. pose proof (Bmult_correct FloatOps.prec FloatOps.emax Flocq.IEEE754.PrimFloat.Hprec Flocq.IEEE754.PrimFloat.Hmax mode_NE (bin c) (bin r)) as C.
      rewrite <- !val_B in C. rewrite Rlt_bool_false in C.
      2:{ eapply Rle_trans; [|exact HG]. right. change FloatOps.emax with (Z.of_nat 1024). rewrite bpow_powerRZ, <- pow_powerRZ. reflexivity. }
      rewrite <- Flocq.IEEE754.PrimFloat.mul_equiv, Flocq.IEEE754.PrimFloat.B2SF_Prim2B in C. rewrite C. cbn. eauto.
Qed.

(** 1 / mu *)
Lemma one_val : val PrimFloat.one = 1.
Proof. unfold val. change (Prim2SF PrimFloat.one) with (S754_finite false 4503599627370496 (-52)). cbv beta iota. change (powerRZ 2 (-52)) with (/ 2 ^ 52). replace (2 ^ 52) with 4503599627370496 by (symmetry; exact (pow_IZR 2 52)). field. Qed.
Lemma inv_cases mu : fin mu -> val mu <> 0 ->
  (exists s, Prim2SF (PrimFloat.div PrimFloat.one mu) = S754_infinity s) \/
  (fin (PrimFloat.div PrimFloat.one mu) /\ val (PrimFloat.div PrimFloat.one mu) = rnd (/ val mu)).
Proof.
  intros F H0.
  pose proof (Bdiv_correct FloatOps.prec FloatOps.emax Flocq.IEEE754.PrimFloat.Hprec Flocq.IEEE754.PrimFloat.Hmax mode_NE (bin PrimFloat.one) (bin mu)) as C.
  rewrite <- !val_B in C. specialize (C H0). rewrite one_val in C.
  destruct (Rlt_bool _ _).
  - right. destruct C as (C1 & C2 & _). rewrite fin_B, val_B, Flocq.IEEE754.PrimFloat.div_equiv. split; [rewrite C2; reflexivity|].
    rewrite C1. f_equal. unfold Rdiv. ring.
  - left. rewrite <- Flocq.IEEE754.PrimFloat.div_equiv, Flocq.IEEE754.PrimFloat.B2SF_Prim2B in C. rewrite C. cbn. eauto.
Qed.

Lemma below_one mu : fin mu -> val mu < 1 -> val mu <= 1 - uro.
Proof.
  intros _ H. rewrite val_B in *.
  pose proof (pred_ge_gt radix2 (SpecFloat.fexp FloatOps.prec FloatOps.emax) (B2R (bin mu)) (bpow radix2 0)) as G.
  eapply Rle_trans; [apply G|].
  - apply generic_format_B2R.
  - apply generic_format_bpow. vm_compute. discriminate.
  - exact H.
  - rewrite pred_bpow. change (SpecFloat.fexp FloatOps.prec FloatOps.emax 0) with (-53)%Z. unfold uro. simpl. lra.
Qed.
Lemma inv_gain mu : fin mu -> 0 < val mu < 1 -> atleast (1 + 2 * uro) (PrimFloat.div PrimFloat.one mu).
Proof.
  intros F (H0 & H1). pose proof (below_one mu F H1) as H2. pose proof uro_pos as Hu.
  destruct (inv_cases mu F ltac:(lra)) as [Hi|(Fi & E)]; [left; exact Hi|]. right. split; [exact Fi|]. rewrite E.
  assert (Eg : succ radix2 (SpecFloat.fexp FloatOps.prec FloatOps.emax) 1 = 1 + 2 * uro).
  { rewrite succ_eq_pos by lra. f_equal. change 1 with (bpow radix2 0). rewrite ulp_bpow.
    change (SpecFloat.fexp FloatOps.prec FloatOps.emax (0 + 1)) with (-52)%Z. unfold uro. simpl. lra. }
  assert (F1 : generic_format radix2 (SpecFloat.fexp FloatOps.prec FloatOps.emax) 1).
  { change 1 with (bpow radix2 0). apply generic_format_bpow. vm_compute. discriminate. }
  assert (Fg : generic_format radix2 (SpecFloat.fexp FloatOps.prec FloatOps.emax) (1 + 2 * uro)).
  { rewrite <- Eg. apply generic_format_succ; [apply FLT_exp_valid; reflexivity|exact F1]. }
  assert (G : 1 + 2 * uro <= rnd (/ val mu)).
  { apply round_N_ge_midp; [apply FLT_exp_valid; reflexivity|exact Fg|].
    rewrite <- Eg at 2. rewrite pred_succ; [|apply FLT_exp_valid; reflexivity|exact F1].
    apply Rlt_le_trans with (/ (1 - uro)).
    - assert (uro < 1). { unfold uro. rewrite <- Rinv_1. apply Rinv_lt_contravar; [rewrite Rmult_1_l; apply pow_lt; lra|]. apply Rlt_pow_R1; [lra|lia]. }
      apply (Rmult_lt_reg_r (1 - uro)); [lra|]. rewrite Rinv_l by lra. nra.
    - apply Rinv_le_contravar; lra. }
  eapply Rle_trans; [exact G|apply Rle_abs].
Qed.
Lemma inv_gain_rate mu : fin mu -> 0 < val mu < 1 -> atleast (/ val mu * (1 - uro)) (PrimFloat.div PrimFloat.one mu).
Proof.
  intros F (H0 & H1). destruct (inv_cases mu F ltac:(lra)) as [Hi|(Fi & E)]; [left; exact Hi|]. right. split; [exact Fi|]. rewrite E.
  assert (H : 1 <= / val mu) by (rewrite <- Rinv_1; apply Rinv_le_contravar; lra).
  assert (P : / 2 ^ 1022 <= 1). { rewrite <- Rinv_1. apply Rinv_le_contravar; [lra|]. apply pow_R1_Rle. lra. }
  rewrite <- (Rabs_pos_eq (/ val mu)) at 1 by lra. apply rnd_low. rewrite Rabs_pos_eq; lra.
Qed.
Lemma grows g b : 1 < g -> exists K, b <= g ^ K.
Proof.
  intros H. destruct (Pow_x_infinity g ltac:(rewrite Rabs_pos_eq; lra) b) as (N & HN). exists N.
  specialize (HN N (le_n N)). rewrite Rabs_pos_eq in HN by (apply pow_le; lra). lra.
Qed.

(** ** The filter *)
Lemma combine_Forall {A B} (P : A -> Prop) (Q : B -> Prop) u v : Forall P u -> Forall Q v -> Forall (fun p => P (fst p) /\ Q (snd p)) (combine u v).
Proof.
  intros Hu. revert v. induction Hu as [|a u Ha Hu IH]; intros v Hv; [constructor|]. destruct v as [|b v]; [constructor|].
  cbn [combine]. constructor; [split; [exact Ha|exact (Forall_inv Hv)]|apply IH; exact (Forall_inv_tail Hv)].
Qed.
Lemma map2_F2 {A B C} (f : A -> B -> C) (P : B -> Prop) u v : length u = length v -> Forall P v ->
  Forall2 (fun r r' => exists z, P z /\ r' = f r z) u (map2 f u v).
Proof.
  revert v. induction u as [|a u IH]; intros [|b v] Hl Hv; try discriminate; cbn [map2]; constructor.
  - exists b. split; [exact (Forall_inv Hv)|reflexivity].
  - apply IH; [cbn in Hl; lia|exact (Forall_inv_tail Hv)].
Qed.
Lemma F2_nth {A B} (P : A -> B -> Prop) u v i a b : Forall2 P u v -> (i < length u)%nat -> P (nth i u a) (nth i v b).
Proof. intros H. revert i. induction H; intros [|i] Hi; cbn in *; try lia; auto. apply IHForall2. lia. Qed.
Lemma F2_len {A B} (P : A -> B -> Prop) u v : Forall2 P u v -> length u = length v.
Proof. induction 1; cbn; congruence. Qed.
Lemma fin_dec a : {fin a} + {~ fin a}.
Proof. unfold fin. destruct (Prim2SF a); auto. Qed.
Lemma zero_zr : zr PrimFloat.zero.
Proof. exact I. Qed.

Definition ent0 (M : list (list float)) i j : float := nth j (nth i M []) PrimFloat.zero.
Definition allfin (M : list (list float)) : Prop := Forall (Forall fin) M.
Definition somebad (n : nat) (M : list (list float)) : Prop := exists i j, (i < n)%nat /\ (j < n)%nat /\ ~ fin (ent0 M i j).
Lemma allfin_or n M : length M = n -> rowsl n M -> allfin M \/ somebad n M.
Proof.
  intros Hl Hr. destruct (Forall_Exists_dec (Forall fin) (fun r => Forall_dec fin fin_dec r) M) as [H|H]; [left; exact H|right].
  apply Exists_exists in H as (r & Hr' & Hn). destruct (In_nth M r [] Hr') as (i & Hi & Ei).
  destruct (Forall_Exists_dec fin fin_dec r) as [H|H]; [contradiction|]. apply Exists_exists in H as (a & Ha & Hna).
  destruct (In_nth r a PrimFloat.zero Ha) as (j & Hj & Ej). exists i, j. unfold ent0. rewrite Ei, Ej.
  unfold rowsl in Hr. rewrite Forall_forall in Hr. rewrite (Hr r Hr') in Hj. split; [lia|]. split; [exact Hj|exact Hna].
Qed.
Lemma allfin_not n M : length M = n -> rowsl n M -> allfin M -> ~ somebad n M.
Proof.
  intros Hl Hr HF (i & j & Hi & Hj & Hn). apply Hn. unfold ent0. unfold allfin in HF. rewrite Forall_forall in HF.
  assert (Hin : In (nth i M []) M) by (apply nth_In; lia). specialize (HF _ Hin). rewrite Forall_forall in HF. apply HF, nth_In.
  unfold rowsl in Hr. rewrite Forall_forall in Hr. rewrite (Hr _ Hin). exact Hj.
Qed.

Section Float.
  Variable solve : list (list float) -> list (list float) -> option (list (list float)).
  Variables (tanh exp : float -> float) (power : float -> float -> float) (sum : list float -> float) (dot : list float -> list float -> float).
  Hypothesis dot_ok : forall u v, length u = length v -> evaluates (combine u v) (dot u v).
  #[local] Hint Extern 0 (Num float) => exact (FNumD solve tanh exp power sum dot) : typeclass_instances.

  Lemma dot_zr_l u v : length u = length v -> Forall zr u -> Forall fin v -> zr (dot u v).
  Proof.
    intros Hl Hu Hv. apply (ev_zr _ _ (dot_ok u v Hl)). eapply Forall_impl; [|exact (combine_Forall _ _ u v Hu Hv)].
    intros p H. right. exact H.
  Qed.
  Lemma dot_zr_r u v : length u = length v -> Forall fin u -> Forall zr v -> zr (dot u v).
  Proof.
    intros Hl Hu Hv. apply (ev_zr _ _ (dot_ok u v Hl)). eapply Forall_impl; [|exact (combine_Forall _ _ u v Hu Hv)].
    intros p H. left. exact H.
  Qed.
  Lemma dot_nan u v i a b : length u = length v -> (i < length u)%nat -> nprod (nth i u a, nth i v b) -> dot u v = nan.
  Proof.
    intros Hl Hi H. apply (ev_nan _ _ (dot_ok u v Hl)). apply Exists_exists. exists (nth i u a, nth i v b). split; [|exact H].
    rewrite <- combine_nth by exact Hl. apply nth_In. rewrite combine_length. lia.
  Qed.

  Lemma col_Forall (P : float -> Prop) j A : P PrimFloat.zero -> Forall (Forall P) A -> Forall P (column j A).
  Proof.
    intros H0 H. unfold column. apply Forall_map. eapply Forall_impl; [|exact H]. intros r Hr.
    destruct (Nat.lt_ge_cases j (length r)) as [Hj|Hj]; [rewrite Forall_nth in Hr; apply Hr; exact Hj|rewrite nth_overflow by exact Hj; exact H0].
  Qed.
  Lemma col_len j (A : list (list float)) : length (column j A) = length A.
  Proof. apply map_length. Qed.
  Lemma mm_Forall (P : float -> Prop) c (A B : list (list float)) : (forall ra j, In ra A -> P (dot ra (column j B))) -> Forall (Forall P) (mm c A B).
  Proof.
    intros H. unfold mm. apply Forall_map, Forall_forall. intros ra Hra. apply Forall_map, Forall_forall. intros cb Hcb.
    unfold transpose in Hcb. apply in_map_iff in Hcb as (j & <- & _). apply H, Hra.
  Qed.
  Lemma in_row n (A : list (list float)) r : rowsl n A -> In r A -> length r = n.
  Proof. unfold rowsl. rewrite Forall_forall. auto. Qed.

  Section Step.
    Variables (n : nat) (mu : float) (M : list (list float)) (x : list float).
    Hypothesis LM : length M = n.
    Hypothesis RM : rowsl n M.
    Hypothesis Lx : length x = n.
    Hypothesis Zx : Forall zr x.
    Notation c := (PrimFloat.div PrimFloat.one mu).

    Lemma xfin : Forall fin x.
    Proof. eapply Forall_impl; [|exact Zx]. apply zr_fin. Qed.

    Lemma step_good : allfin M -> fin mu -> ~ zr mu ->
      Forall2 (Forall2 (fun r r' => exists z, zr z /\ r' = PrimFloat.mul c (PrimFloat.sub r z))) M (rls_R mu M x).
    Proof.
      intros HF Fmu Nmu. pose proof xfin as Fx. unfold rls_R. rewrite Lx.
      assert (HO : Forall (Forall zr) (outer x x)).
      { unfold outer. apply Forall_map. eapply Forall_impl; [|exact Zx]. intros a Ha. apply Forall_map. eapply Forall_impl; [|exact Zx].
        intros b Hb. apply mul_zr_r; [apply zr_fin, Ha|exact Hb]. }
      assert (LO : length (outer x x) = n) by (unfold outer; rewrite map_length; exact Lx).
      assert (H1 : Forall (Forall zr) (mm n M (outer x x))).
      { apply mm_Forall. intros ra j Hra. apply dot_zr_r.
        - rewrite col_len, LO. apply (in_row n M); auto.
        - unfold allfin in HF. rewrite Forall_forall in HF. apply HF, Hra.
        - apply col_Forall; [exact zero_zr|exact HO]. }
      assert (L1 : length (mm n M (outer x x)) = n) by (rewrite mm_length; exact LM).
      assert (R1 : rowsl n (mm n M (outer x x))) by apply mm_rows.
      assert (H2 : Forall (Forall zr) (mm n (mm n M (outer x x)) M)).
      { apply mm_Forall. intros ra j Hra. apply dot_zr_l.
        - rewrite col_len, LM. apply (in_row n _ _ R1 Hra).
        - rewrite Forall_forall in H1. apply H1, Hra.
        - apply col_Forall; [exact (zr_fin _ zero_zr)|exact HF]. }
      assert (L2 : length (mm n (mm n M (outer x x)) M) = n) by (rewrite mm_length; exact L1).
      assert (R2 : rowsl n (mm n (mm n M (outer x x)) M)) by apply mm_rows.
      assert (H3 : zr (dot (map (fun c => dot x c) (transpose n M)) x)).
      { apply dot_zr_l; [rewrite map_length; unfold transpose; rewrite map_length, seq_length; auto| |exact Fx].
        apply Forall_map, Forall_forall. intros cc Hc. unfold transpose in Hc. apply in_map_iff in Hc as (j & <- & _).
        apply dot_zr_l; [rewrite col_len; congruence|exact Zx|]. apply col_Forall; [exact (zr_fin _ zero_zr)|exact HF]. }
      cbv zeta. change (nadd mu (ndot (map (fun c => ndot x c) (transpose n M)) x)) with (PrimFloat.add mu (dot (map (fun c => dot x c) (transpose n M)) x)).
      destruct (add_zr_r mu _ H3) as [->|(_ & E)]; [|contradiction]. clear H3.
      revert H2 L2 R2. generalize (mm n (mm n M (outer x x)) M). intros B HB LB RB. clear -LM RM HB LB RB Fmu Nmu.
      unfold mscale. change (ndiv n1 mu) with c. rewrite <- LM in LB. clear LM. revert B HB LB RB. induction M as [|r A IH]; intros [|b B] HB LB RB; try discriminate; [constructor|].
      cbn [map2 map]. constructor.
      - pose proof (Forall_inv RM) as Lr. pose proof (Forall_inv RB) as Lb. pose proof (Forall_inv HB) as Hb. cbn beta in Lr, Lb, Hb. rewrite <- Lb in Lr. clear -Lr Hb Fmu Nmu.
        revert b Lr Hb. induction r as [|a r IH]; intros [|b0 b] Lr Hb; try discriminate; [constructor|]. cbn [map2 vscale map]. constructor.
        + exists (PrimFloat.div b0 mu). split; [|reflexivity]. apply div_zr; [exact (Forall_inv Hb)|exact Fmu|exact Nmu].
        + apply IH; [cbn in Lr; lia|exact (Forall_inv_tail Hb)].
      - apply IH; [exact (Forall_inv_tail RM)|exact (Forall_inv_tail HB)|cbn in LB; lia|exact (Forall_inv_tail RB)].
    Qed.

    Lemma step_bad : somebad n M -> rls_R mu M x = repeat (repeat nan n) n.
    Proof.
      intros (i & j & Hi & Hj & Hb). unfold rls_R. rewrite Lx. cbv zeta.
      assert (E : ndot (map (fun c => ndot x c) (transpose n M)) x = nan).
      { apply (dot_nan _ _ j PrimFloat.zero PrimFloat.zero).
        - rewrite map_length. unfold transpose. rewrite map_length, seq_length. auto.
        - rewrite map_length. unfold transpose. rewrite map_length, seq_length. exact Hj.
        - right. right. left. cbn [fst].
          assert (Hjt : (j < length (transpose n M))%nat) by (unfold transpose; rewrite map_length, seq_length; exact Hj).
          rewrite (nth_indep _ PrimFloat.zero (ndot x [])) by (rewrite map_length; exact Hjt).
          rewrite (map_nth (fun c => ndot x c) (transpose n M) [] j).
          assert (Ec : nth j (transpose n M) [] = column j M).
          { unfold transpose. rewrite (nth_indep _ [] (column 0 M)) by (rewrite map_length, seq_length; exact Hj).
            rewrite (map_nth (fun j => column j M) (seq 0 n) 0%nat j), seq_nth by exact Hj. reflexivity. }
          rewrite Ec. apply (dot_nan x (column j M) i PrimFloat.zero PrimFloat.zero); [rewrite col_len; congruence|congruence|].
          right. left. cbn [fst snd]. split.
          + rewrite Forall_nth in Zx. apply Zx. lia.
          + unfold column. rewrite (nth_indep _ PrimFloat.zero (nth j [] n0)) by (rewrite map_length; lia).
            rewrite (map_nth (fun r => nth j r n0) M [] i). exact Hb. }
      rewrite E. change (nadd mu nan) with (PrimFloat.add mu nan). rewrite PropsOCNLMSF.add_nan_r.
      assert (L2 : length (mm n (mm n M (outer x x)) M) = n) by (rewrite !mm_length; exact LM).
      assert (R2 : rowsl n (mm n (mm n M (outer x x)) M)) by apply mm_rows.
      revert L2 R2. generalize (mm n (mm n M (outer x x)) M). intros B LB RB. clear -LM RM LB RB.
      unfold mscale. assert (G : forall k, length M = k -> length B = k -> map (vscale (ndiv n1 mu)) (map2 (map2 (fun r r1 => nsub r (ndiv r1 nan))) M B) = repeat (repeat nan n) k).
      { intros k. clear LM LB. revert B RB k. induction M as [|r A IH]; intros [|b B] RB k LA LB; cbn [length] in *; subst k; try discriminate; [reflexivity|].
        cbn [map2 map repeat length]. f_equal.
        - pose proof (Forall_inv RM) as Lr. pose proof (Forall_inv RB) as Lb. cbn beta in Lr, Lb. clear -Lr Lb. revert b n Lr Lb.
          induction r as [|a r IH]; intros [|b0 b] n Lr Lb; cbn [length] in *; subst n; try discriminate; [reflexivity|].
          cbn [map2 vscale map repeat]. f_equal.
          + change (PrimFloat.mul c (PrimFloat.sub a (PrimFloat.div b0 nan)) = nan). rewrite div_nan_r, PropsOCNLMSF.sub_nan_r. apply PropsOCNLMSF.mul_nan_r.
          + apply IH; [reflexivity|congruence].
        - apply IH; [exact (Forall_inv_tail RM)|exact (Forall_inv_tail RB)|reflexivity|congruence]. }
      apply G; auto.
    Qed.
  End Step.

  Lemma nth_rep {A} (a b : A) k i : (i < k)%nat -> nth i (repeat a k) b = a.
  Proof. revert i. induction k as [|k IH]; intros [|i] Hi; cbn; try lia; auto. apply IH. lia. Qed.
  Lemma ent_nan n i j : (i < n)%nat -> (j < n)%nat -> ent0 (repeat (repeat nan n) n) i j = nan.
  Proof. intros Hi Hj. unfold ent0. rewrite nth_rep by exact Hi. apply nth_rep, Hj. Qed.
  Lemma bad_nan n : (0 < n)%nat -> somebad n (repeat (repeat nan n) n).
  Proof. intros Hn. exists 0%nat, 0%nat. rewrite ent_nan by exact Hn. split; [exact Hn|]. split; [exact Hn|apply nan_not_fin]. Qed.

  (** one sample of silence *)
  Lemma adapt_silent n (o : obj float) d x eps M : wf n o -> length x = n -> Forall zr x -> o_ext o = XRLS eps M -> fin (o_mu o) -> ~ zr (o_mu o) ->
    exists o' M', adapt d x o = (o', Ok tt) /\ wf n o' /\ o_ext o' = XRLS eps M' /\ o_mu o' = o_mu o /\ M' = rls_R (o_mu o) M x /\
      (somebad n M -> M' = repeat (repeat nan n) n /\ o_w o' = repeat nan n) /\
      (allfin M -> Forall2 (Forall2 (fun r r' => exists z, zr z /\ r' = PrimFloat.mul (PrimFloat.div PrimFloat.one (o_mu o)) (PrimFloat.sub r z))) M M') /\
      (allfin M' -> Forall fin (o_w o) -> fin d -> Forall2 eqz (o_w o') (o_w o)).
  Proof.
    intros Hwf Lx Zx E Fmu Nmu. pose proof Hwf as (Lw & _ & HX). rewrite E in HX. cbn in HX. destruct HX as (LM & RM).
    assert (Hmu : neqb (o_mu o) n0 = false).
    { change (PrimFloat.eqb (o_mu o) PrimFloat.zero = false). destruct (PrimFloat.eqb (o_mu o) PrimFloat.zero) eqn:EE; [|reflexivity].
      exfalso. apply Nmu, zr_spec. exact EE. }
    pose proof (adapt_RLS n o d x eps M Hwf Lx E Hmu) as HA. cbv zeta in HA.
    destruct (adapt_ok n o d x Hwf Lx) as (o1 & r1 & E1 & Hwf1 & _). rewrite HA in E1. apply pair_equal_spec in E1 as (E1 & _).
    eexists _, (rls_R (o_mu o) M x). split; [exact HA|]. split; [rewrite E1; exact Hwf1|]. split; [reflexivity|]. split; [reflexivity|]. split; [reflexivity|].
    cbn [set_w set_ext o_w]. destruct (rls_R_shape (o_mu o) n M x LM RM Lx) as (LM' & RM').
    split; [|split].
    - intros Hb. rewrite (step_bad n (o_mu o) M x LM RM Lx Zx Hb). split; [reflexivity|].
      assert (Hn : (0 < n)%nat) by (destruct Hb as (i & _ & Hi & _); lia).
      assert (G : forall k w, length w = k -> map2 nadd w (map (fun a => nmul a (nsub d (ndot (o_w o) x))) (mv (repeat (repeat nan n) k) x)) = repeat nan k).
      { induction k as [|k IH]; intros [|a w] Lk; try discriminate; [reflexivity|]. cbn [repeat mv map map2]. f_equal.
        - change (PrimFloat.add a (PrimFloat.mul (dot (repeat nan n) x) (nsub d (ndot (o_w o) x))) = nan).
          rewrite (dot_nan (repeat nan n) x 0 PrimFloat.zero PrimFloat.zero); [|rewrite repeat_length; auto|rewrite repeat_length; auto|].
          + rewrite PropsOCNLMSF.mul_nan_l. apply PropsOCNLMSF.add_nan_r.
          + right. right. left. cbn [fst]. apply nth_rep, Hn.
        - apply IH. cbn in Lk. lia. }
      apply G, Lw.
    - intros HF. apply (step_good n (o_mu o) M x LM RM Lx Zx HF Fmu Nmu).
    - intros HF Hw Fd.
      assert (Fe : fin (nsub d (ndot (o_w o) x))).
      { change (fin (PrimFloat.sub d (dot (o_w o) x))). assert (Hz : zr (dot (o_w o) x)) by (apply dot_zr_r; auto; congruence).
        eapply eqz_fin; [|exact Fd]. pose proof (sub_zr d _ Hz) as [H|(H1 & H2)]; [left; auto|right; auto]. }
      revert Fe. generalize (nsub d (ndot (o_w o) x)). intros e Fe. clear -LM' RM' HF Lw Lx Zx Fe dot_ok. rewrite <- Lw in LM'.
      revert LM' RM' HF. generalize (rls_R (o_mu o) M x), (o_w o). intros A. clear Lw. induction A as [|r A IH]; intros [|a w] LA RA HF; try discriminate; [constructor|].
      cbn [mv map map2]. constructor.
      + apply add_zr_r. apply mul_zr_l; [|exact Fe]. apply dot_zr_r; [|exact (Forall_inv HF)|exact Zx]. pose proof (Forall_inv RA) as Lr. cbn beta in Lr. congruence.
      + apply IH; [cbn in LA; lia|exact (Forall_inv_tail RA)|exact (Forall_inv_tail HF)].
  Qed.

  Lemma silent_zr x : silent x -> Forall (Forall zr) x.
  Proof. intros H. eapply Forall_impl; [|exact H]. intros r Hr. eapply Forall_impl; [|exact Hr]. intros a Ha. apply zr_spec, Ha. Qed.

  (** silence never raises and keeps the filter an RLS filter *)
  Lemma loop_ok n : forall ds xs (o : obj float) eps M, wf n o -> length ds = length xs -> rowsl n xs -> Forall (Forall zr) xs ->
    o_ext o = XRLS eps M -> fin (o_mu o) -> ~ zr (o_mu o) ->
    snd (adapt_all ds xs o) = Ok tt /\ wf n (fst (adapt_all ds xs o)) /\ o_mu (fst (adapt_all ds xs o)) = o_mu o /\
    exists M', o_ext (fst (adapt_all ds xs o)) = XRLS eps M'.
  Proof.
    induction ds as [|d ds IH]; intros [|x xs] o eps M Hwf Hl Hr HZ E Fm Nm; try discriminate; [cbn; eauto|].
    destruct (adapt_silent n o d x eps M Hwf (Forall_inv Hr) (Forall_inv HZ) E Fm Nm) as (o1 & M1 & E1 & Hwf1 & E1' & Em & _).
    cbn [adapt_all]. unfold bind. rewrite E1. rewrite <- Em in Fm, Nm |- *.
    apply (IH xs o1 eps M1); auto; [exact (Forall_inv_tail Hr)|exact (Forall_inv_tail HZ)].
  Qed.
  Lemma loop_bad n : forall ds xs (o : obj float) eps M, wf n o -> length ds = length xs -> rowsl n xs -> Forall (Forall zr) xs ->
    o_ext o = XRLS eps M -> fin (o_mu o) -> ~ zr (o_mu o) -> somebad n M ->
    (exists M', o_ext (fst (adapt_all ds xs o)) = XRLS eps M' /\ somebad n M') /\ (xs <> [] -> o_w (fst (adapt_all ds xs o)) = repeat nan n).
  Proof.
    induction ds as [|d ds IH]; intros [|x xs] o eps M Hwf Hl Hr HZ E Fm Nm HB; try discriminate; [cbn; split; [eauto|congruence]|].
    destruct (adapt_silent n o d x eps M Hwf (Forall_inv Hr) (Forall_inv HZ) E Fm Nm) as (o1 & M1 & E1 & Hwf1 & E1' & Em & _ & Hb & _).
    destruct (Hb HB) as (EM & Ew). assert (Hn : (0 < n)%nat) by (destruct HB as (i & _ & Hi & _); lia).
    cbn [adapt_all]. unfold bind. rewrite E1. rewrite <- Em in Fm, Nm.
    destruct (IH xs o1 eps M1) as (H1 & H2); auto; [exact (Forall_inv_tail Hr)|exact (Forall_inv_tail HZ)|rewrite EM; apply bad_nan, Hn|].
    split; [exact H1|]. intros _. destruct xs as [|x1 xs]; [|apply H2; discriminate]. destruct ds; [exact Ew|discriminate].
  Qed.
  Lemma loop_windup n i j c0 : (i < n)%nat -> (j < n)%nat -> 1 <= c0 -> 1 <= c0 * (1 - uro) ->
    forall K ds xs (o : obj float) eps M m, (K < length xs)%nat ->
    wf n o -> length ds = length xs -> rowsl n xs -> Forall (Forall zr) xs ->
    o_ext o = XRLS eps M -> fin (o_mu o) -> ~ zr (o_mu o) -> atleast c0 (PrimFloat.div PrimFloat.one (o_mu o)) ->
    / 2 ^ 1022 <= m -> atleast m (ent0 M i j) -> 2 ^ 1024 <= (c0 * (1 - uro)) ^ K * m ->
    o_w (fst (adapt_all ds xs o)) = repeat nan n.
  Proof.
    intros Hi Hj Hc0 Hg. induction K as [|K IH]; intros ds xs o eps M m HK Hwf Hl Hr HZ E Fm Nm HC Hm HA HB.
    - rewrite pow_O, Rmult_1_l in HB. apply (loop_bad n ds xs o eps M Hwf Hl Hr HZ E Fm Nm).
      + exists i, j. split; [exact Hi|]. split; [exact Hj|]. eapply atleast_inf; eauto.
      + destruct xs; [cbn in HK; lia|discriminate].
    - pose proof Hwf as (_ & _ & HX). rewrite E in HX. cbn in HX. destruct HX as (LM & RM).
      destruct (allfin_or n M LM RM) as [HF|Hbad].
      2:{ apply (loop_bad n ds xs o eps M Hwf Hl Hr HZ E Fm Nm Hbad). destruct xs; [cbn in HK; lia|discriminate]. }
      destruct xs as [|x xs]; [cbn in HK; lia|]. destruct ds as [|d ds]; [discriminate|].
      destruct (adapt_silent n o d x eps M Hwf (Forall_inv Hr) (Forall_inv HZ) E Fm Nm) as (o1 & M1 & E1 & Hwf1 & E1' & Em & _ & _ & Hs & _).
      specialize (Hs HF). cbn [adapt_all]. unfold bind. rewrite E1. rewrite <- Em in Fm, Nm, HC.
      apply (IH ds xs o1 eps M1 (c0 * (1 - uro) * m)); auto.
      + cbn in HK. lia.
      + exact (Forall_inv_tail Hr).
      + exact (Forall_inv_tail HZ).
      + assert (P : 0 < / 2 ^ 1022) by (apply Rinv_0_lt_compat, pow_lt; lra). nra.
      + pose proof (F2_nth _ _ _ i [] [] Hs ltac:(lia)) as Hrow.
        assert (Lr : length (nth i M []) = n). { unfold rowsl in RM. rewrite Forall_nth in RM. apply RM. lia. }
        pose proof (F2_nth _ _ _ j PrimFloat.zero PrimFloat.zero Hrow ltac:(lia)) as (z & Hz & Ez).
        change (nth j (nth i M1 []) PrimFloat.zero) with (ent0 M1 i j) in Ez. change (nth j (nth i M []) PrimFloat.zero) with (ent0 M i j) in Ez.
        rewrite Ez, <- Em. apply mul_atleast; auto.
        destruct (sub_zr (ent0 M i j) z Hz) as [->|(_ & H0)]; [exact HA|].
        exfalso. destruct HA as [(s & Es)|(_ & Hv)]; [unfold zr in H0; rewrite Es in H0; exact H0|].
        rewrite (zr_val _ H0), Rabs_R0 in Hv. assert (P : 0 < / 2 ^ 1022) by (apply Rinv_0_lt_compat, pow_lt; lra). lra.
      + rewrite <- Rmult_assoc. cbn [pow] in HB. lra.
  Qed.
  Lemma loop_quiet n : forall ds xs (o : obj float) eps M M', wf n o -> length ds = length xs -> rowsl n xs -> Forall (Forall zr) xs ->
    o_ext o = XRLS eps M -> fin (o_mu o) -> ~ zr (o_mu o) -> o_ext (fst (adapt_all ds xs o)) = XRLS eps M' -> allfin M' ->
    Forall fin (o_w o) -> Forall fin ds -> map val (o_w (fst (adapt_all ds xs o))) = map val (o_w o).
  Proof.
    induction ds as [|d ds IH]; intros [|x xs] o eps M M' Hwf Hl Hr HZ E Fm Nm E' HF Fw Fd; try discriminate; [reflexivity|].
    destruct (adapt_silent n o d x eps M Hwf (Forall_inv Hr) (Forall_inv HZ) E Fm Nm) as (o1 & M1 & E1 & Hwf1 & E1' & Em & EM1 & _ & _ & Hq).
    cbn [adapt_all] in *. unfold bind in *. rewrite E1 in *. rewrite <- Em in Fm, Nm.
    assert (L1 : length ds = length xs) by (cbn in Hl; lia).
    pose proof Hwf1 as (_ & _ & HX). rewrite E1' in HX. cbn in HX. destruct HX as (LM1 & RM1).
    assert (HF1 : allfin M1).
    { destruct (allfin_or n M1 LM1 RM1) as [H|HB]; [exact H|].
      destruct (loop_bad n ds xs o1 eps M1 Hwf1 L1 (Forall_inv_tail Hr) (Forall_inv_tail HZ) E1' Fm Nm HB) as ((M2 & E2 & B2) & _).
      rewrite E' in E2. injection E2 as <-.
      destruct (loop_ok n ds xs o1 eps M1 Hwf1 L1 (Forall_inv_tail Hr) (Forall_inv_tail HZ) E1' Fm Nm) as (_ & W2 & _).
      destruct W2 as (_ & _ & HX). rewrite E' in HX. cbn in HX. destruct HX as (L2 & R2). destruct (allfin_not n M' L2 R2 HF B2). }
    specialize (Hq HF1 Fw (Forall_inv Fd)).
    assert (EW : map val (o_w o1) = map val (o_w o)).
    { clear - Hq. induction Hq as [|a b l l' H _ IH]; [reflexivity|]. cbn [map]. rewrite IH, (eqz_val a b H). reflexivity. }
    rewrite <- EW. apply (IH xs o1 eps M1 M'); auto.
    - exact (Forall_inv_tail Hr).
    - exact (Forall_inv_tail HZ).
    - clear - Hq Fw. revert Fw. induction Hq as [|a b l l' H _ IH]; intros Fw; constructor.
      + eapply eqz_fin; [|exact (Forall_inv Fw)]. destruct H as [->|(H1 & H2)]; [left; reflexivity|right; auto].
      + apply IH. exact (Forall_inv_tail Fw).
    - exact (Forall_inv_tail Fd).
  Qed.

  (** *** from a run to the loop *)
  Lemma run_silent n (o : obj float) d x eps M : reachable n o -> length d = length x -> x <> [] -> rows_of n x -> silent x ->
    o_ext o = XRLS eps M -> fin (o_mu o) -> val (o_mu o) <> 0 ->
    exists o' y e w, run d x o = (o', Ok (y, e, w)) /\ o_w o' = o_w (fst (adapt_all d x o)) /\ o_ext o' = o_ext (fst (adapt_all d x o)).
  Proof.
    intros Hr Hl Hne Hx HS E Fm Nm. apply reachable_wf in Hr.
    assert (Nm' : ~ zr (o_mu o)) by (intros H; apply Nm, zr_val, H).
    destruct (loop_ok n d x o eps M Hr Hl Hx (silent_zr x HS) E Fm Nm') as (HO & _).
    destruct (run_eq n o d x Hr Hx Hl Hne) as (h & ER & _). rewrite HO in ER. cbn [rmap] in ER.
    eexists _, _, _, _. split; [exact ER|]. split; reflexivity.
  Qed.

  (** *** C88.  Enough samples of silence destroy an RLS filter whose forgetting factor is below one: if K samples suffice to
      lift entry (i, j) of its matrix over 2^1024 at a growth of (1 - 2^-53)^2 / mu per sample, then after more than K samples of silence
      all weights are nan. *)
  Theorem C88_windup_rate : forall n (o : obj float) eps M i j K d x,
    reachable n o -> o_ext o = XRLS eps M -> fin (o_mu o) -> 0 < val (o_mu o) < 1 ->
    (i < n)%nat -> (j < n)%nat -> let r := R_entry PrimFloat.zero o i j in fin r -> / 2 ^ 1022 <= Rabs (val r) ->
    2 ^ 1024 <= ((1 - uro) ^ 2 / val (o_mu o)) ^ K * Rabs (val r) ->
    length d = length x -> (K < length x)%nat -> rows_of n x -> silent x ->
    exists o' y e w, run d x o = (o', Ok (y, e, w)) /\ o_w o' = repeat nan n.
  Proof.
    intros n o eps M i j K d x Hr E Fm Hmu Hi Hj r Fr Hrr HK Hl HKx Hx HS.
    destruct (run_silent n o d x eps M Hr Hl ltac:(destruct x; [cbn in HKx; lia|discriminate]) Hx HS E Fm ltac:(lra)) as (o' & y & e & w & ER & Ew & _).
    exists o', y, e, w. split; [exact ER|]. rewrite Ew.
    assert (Er : r = ent0 M i j) by (unfold r, R_entry, ent0; rewrite E; reflexivity).
    pose proof uro_pos as Hu. pose proof (below_one _ Fm (proj2 Hmu)) as Hb. set (mu := val (o_mu o)) in *.
    set (c0 := / mu * (1 - uro)).
    assert (Hinv : 0 < / mu) by (apply Rinv_0_lt_compat; lra).
    assert (Hc0 : 1 <= c0).
    { unfold c0. apply (Rmult_le_reg_l mu); [lra|]. rewrite <- Rmult_assoc, Rinv_r by lra. lra. }
    assert (Eg : (1 - uro) ^ 2 / mu = c0 * (1 - uro)) by (unfold c0, Rdiv; ring). rewrite Eg in HK.
    assert (Hg : 1 <= c0 * (1 - uro)).
    { destruct (Rle_lt_dec 1 (c0 * (1 - uro))) as [H|H]; [exact H|exfalso].
      assert (G0 : 0 <= c0 * (1 - uro)). { apply Rmult_le_pos; lra. }
      assert (GK : 0 <= (c0 * (1 - uro)) ^ K <= 1).
      { split; [apply pow_le; exact G0|]. clear HK HKx. induction K as [|K IH]; [cbn; lra|]. cbn [pow].
        assert (0 <= (c0 * (1 - uro)) ^ K) by (apply pow_le; exact G0).
        apply Rle_trans with (1 * 1); [apply Rmult_le_compat; lra|lra]. }
      pose proof (fin_small r Fr) as Hs. pose proof (Rabs_pos (val r)).
      assert ((c0 * (1 - uro)) ^ K * Rabs (val r) <= 1 * Rabs (val r)) by (apply Rmult_le_compat_r; lra). lra. }
    apply (loop_windup n i j c0 Hi Hj Hc0 Hg K d x o eps M (Rabs (val r))); auto.
    - exact (reachable_wf n o Hr).
    - apply silent_zr, HS.
    - intros H. apply zr_val in H. unfold mu in Hmu. lra.
    - apply inv_gain_rate; auto.
    - rewrite <- Er. right. split; [exact Fr|lra].
  Qed.

  (** whatever the forgetting factor below one: some number of samples of silence does it *)
  Theorem C88_windup : forall n (o : obj float) eps M i j,
    reachable n o -> o_ext o = XRLS eps M -> fin (o_mu o) -> 0 < val (o_mu o) < 1 ->
    (i < n)%nat -> (j < n)%nat -> let r := R_entry PrimFloat.zero o i j in fin r -> / 2 ^ 1022 <= Rabs (val r) ->
    exists K, forall d x, length d = length x -> (K < length x)%nat -> rows_of n x -> silent x ->
      exists o' y e w, run d x o = (o', Ok (y, e, w)) /\ o_w o' = repeat nan n.
  Proof.
    intros n o eps M i j Hr E Fm Hmu Hi Hj r Fr Hrr. pose proof uro_pos as Hu.
    assert (Er : r = ent0 M i j) by (unfold r, R_entry, ent0; rewrite E; reflexivity).
    set (c0 := 1 + 2 * uro).
    assert (U1 : uro <= / 8). { unfold uro. apply Rinv_le_contravar; [lra|]. apply Rle_trans with (2 ^ 3); [lra|]. apply Rle_pow; [lra|lia]. }
    assert (Hg : 1 < c0 * (1 - uro)) by (unfold c0; nra).
    assert (P : 0 < / 2 ^ 1022) by (apply Rinv_0_lt_compat, pow_lt; lra).
    destruct (grows _ (2 ^ 1024 * 2 ^ 1022) Hg) as (K & HK). exists K. intros d x Hl HKx Hx HS.
    destruct (run_silent n o d x eps M Hr Hl ltac:(destruct x; [cbn in HKx; lia|discriminate]) Hx HS E Fm ltac:(lra)) as (o' & y & e & w & ER & Ew & _).
    exists o', y, e, w. split; [exact ER|]. rewrite Ew.
    apply (loop_windup n i j c0 Hi Hj ltac:(unfold c0; lra) ltac:(lra) K d x o eps M (Rabs (val r))); auto.
    - exact (reachable_wf n o Hr).
    - apply silent_zr, HS.
    - intros H. apply zr_val in H. lra.
    - apply inv_gain; auto.
    - rewrite <- Er. right. split; [exact Fr|lra].
    - assert (Q : 0 < 2 ^ 1022) by (apply pow_lt; lra).
      apply Rle_trans with (2 ^ 1024 * 2 ^ 1022 * Rabs (val r)); [|apply Rmult_le_compat_r; [apply Rabs_pos|exact HK]].
      rewrite Rmult_assoc. rewrite <- (Rmult_1_r (2 ^ 1024)) at 1. apply Rmult_le_compat_l; [apply pow_le; lra|].
      apply Rle_trans with (2 ^ 1022 * / 2 ^ 1022); [rewrite Rinv_r; lra|]. apply Rmult_le_compat_l; lra.
  Qed.

  (** nan weights stay, whatever is done with the filter afterwards *)
  Theorem C88_for_good : forall n (o : obj float) ps, reachable n o -> o_w o = repeat nan n -> Forall (op_shape n) ps ->
    o_w (exec_all ps o) = repeat nan n.
  Proof.
    intros n o ps Hr Hw HF. apply reachable_wf in Hr. revert o Hr Hw. induction ps as [|p ps IH]; intros o Hwf Hw; [exact Hw|].
    pose proof (Forall_inv HF) as Hp. apply Forall_inv_tail in HF. change (exec_all (p :: ps) o) with (exec_all ps (exec p o)).
    apply IH; [exact HF|apply exec_wf; auto|]. apply (PropsNan.exec_inv n (fun o => o_w o = repeat nan n)); auto.
    - intros o0 x Hwf0 H0 Hl. destruct (predict_ok n o0 x Hwf0 Hl) as (o1 & y & -> & _ & Hw1 & _). cbn. rewrite Hw1. exact H0.
    - intros o0 d x Hwf0 H0 Hl. destruct (PropsNan.adapt_weights n o0 d x Hwf0 Hl) as [->|(dw & Hd & ->)]; [exact H0|].
      rewrite H0. clear - Hd. revert n Hd. induction dw as [|b dw IH]; intros n Hd; cbn in Hd; subst n; [reflexivity|]. cbn [repeat map2].
      change (nadd nan b) with (PrimFloat.add nan b). rewrite PropsOCNLMSF.add_nan_l. f_equal. apply IH. reflexivity.
  Qed.

  (** nothing shows before: as long as the matrix of the filter has stayed finite, silence has not changed the weights *)
  Theorem C88_no_warning : forall n (o o' : obj float) eps M M' d x y e w,
    reachable n o -> o_ext o = XRLS eps M -> fin (o_mu o) -> val (o_mu o) <> 0 -> Forall fin (o_w o) ->
    rows_of n x -> silent x -> Forall fin d -> run d x o = (o', Ok (y, e, w)) ->
    o_ext o' = XRLS eps M' -> Forall (Forall fin) M' -> map val (o_w o') = map val (o_w o).
  Proof.
    intros n o o' eps M M' d x y e w Hr E Fm Nm Fw Hx HS Fd ER E' HF.
    assert (Hl : length d = length x).
    { destruct (Nat.eq_dec (length d) (length x)) as [H|H]; [exact H|]. rewrite run_bad_length in ER by exact H. discriminate. }
    assert (Hne : x <> []). { intros ->. destruct d; [|discriminate]. discriminate. }
    destruct (run_silent n o d x eps M Hr Hl Hne Hx HS E Fm Nm) as (o1 & y1 & e1 & w1 & ER1 & Ew & Ee). rewrite ER in ER1. injection ER1 as <- _ _ _.
    rewrite Ew. apply (loop_quiet n d x o eps M M' (reachable_wf n o Hr) Hl Hx (silent_zr x HS) E Fm); auto.
    - intros H. apply Nm, zr_val, H.
    - rewrite <- Ee. exact E'.
  Qed.

  (** without forgetting (mu = 1) silence is harmless for ever *)
  Lemma mul_one a : fin a -> fin (PrimFloat.mul PrimFloat.one a) /\ val (PrimFloat.mul PrimFloat.one a) = val a.
  Proof.
    intros Fa.
    pose proof (Bmult_correct FloatOps.prec FloatOps.emax Flocq.IEEE754.PrimFloat.Hprec Flocq.IEEE754.PrimFloat.Hmax mode_NE (bin PrimFloat.one) (bin a)) as C.
    rewrite <- (val_B PrimFloat.one), one_val, Rmult_1_l in C.
    rewrite round_generic in C; [|apply valid_rnd_round_mode|apply generic_format_B2R].
    rewrite Rlt_bool_true in C by apply abs_B2R_lt_emax. destruct C as (C1 & C2 & _).
    rewrite fin_B, !val_B, Flocq.IEEE754.PrimFloat.mul_equiv. apply fin_B in Fa. split; [|exact C1]. rewrite C2, Fa. reflexivity.
  Qed.
  Lemma loop_mu1 n : forall ds xs (o : obj float) eps M, wf n o -> length ds = length xs -> rowsl n xs -> Forall (Forall zr) xs ->
    o_ext o = XRLS eps M -> o_mu o = PrimFloat.one -> allfin M ->
    exists M', o_ext (fst (adapt_all ds xs o)) = XRLS eps M' /\ allfin M' /\ map (map val) M' = map (map val) M.
  Proof.
    induction ds as [|d ds IH]; intros [|x xs] o eps M Hwf Hl Hr HZ E Em HF; try discriminate; [exists M; auto|].
    assert (Fm : fin (o_mu o)) by (rewrite Em; exact I). assert (Nm : ~ zr (o_mu o)) by (rewrite Em; intros H; exact H).
    destruct (adapt_silent n o d x eps M Hwf (Forall_inv Hr) (Forall_inv HZ) E Fm Nm) as (o1 & M1 & E1 & Hwf1 & E1' & Em1 & _ & _ & Hs & _).
    specialize (Hs HF). rewrite Em in Hs, Em1. change (PrimFloat.div PrimFloat.one PrimFloat.one) with PrimFloat.one in Hs.
    assert (H1 : allfin M1 /\ map (map val) M1 = map (map val) M).
    { clear - Hs HF. revert HF. induction Hs as [|r r' A A' Hrow _ IH]; intros HF; [split; [constructor|reflexivity]|].
      destruct (IH (Forall_inv_tail HF)) as (I1 & I2). cbn [map].
      assert (H : Forall fin r' /\ map val r' = map val r).
      { pose proof (Forall_inv HF) as Fr. cbn beta in Fr. clear - Hrow Fr. revert Fr. induction Hrow as [|a a' u u' (z & Hz & Ez) _ IH]; intros Fr; [split; [constructor|reflexivity]|].
        destruct (IH (Forall_inv_tail Fr)) as (I1 & I2). pose proof (sub_zr a z Hz) as Hq.
        assert (Fs : fin (PrimFloat.sub a z)). { eapply eqz_fin; [|exact (Forall_inv Fr)]. destruct Hq as [->|(Q1 & Q2)]; [left; reflexivity|right; auto]. }
        destruct (mul_one _ Fs) as (G1 & G2). rewrite Ez. split; [constructor; [exact G1|exact I1]|]. cbn [map]. rewrite I2, G2, (eqz_val _ _ Hq). reflexivity. }
      destruct H as (G1 & G2). rewrite I2, G2. split; [constructor; assumption|reflexivity]. }
    destruct H1 as (F1 & V1). cbn [adapt_all]. unfold bind. rewrite E1.
    destruct (IH xs o1 eps M1) as (M' & E' & F' & V'); auto; [exact (Forall_inv_tail Hr)|exact (Forall_inv_tail HZ)|].
    exists M'. split; [exact E'|]. split; [exact F'|congruence].
  Qed.
  Theorem C88_no_forgetting : forall n (o : obj float) eps M d x,
    reachable n o -> o_ext o = XRLS eps M -> o_mu o = PrimFloat.one -> Forall fin (o_w o) -> Forall (Forall fin) M ->
    length d = length x -> x <> [] -> rows_of n x -> silent x -> Forall fin d ->
    exists o' y e w M', run d x o = (o', Ok (y, e, w)) /\ map val (o_w o') = map val (o_w o) /\
      o_ext o' = XRLS eps M' /\ map (map val) M' = map (map val) M.
  Proof.
    intros n o eps M d x Hr E Em Fw FM Hl Hne Hx HS Fd.
    assert (Fm : fin (o_mu o)) by (rewrite Em; exact I). assert (Nm : val (o_mu o) <> 0) by (rewrite Em, one_val; lra).
    destruct (run_silent n o d x eps M Hr Hl Hne Hx HS E Fm Nm) as (o' & y & e & w & ER & Ew & Ee).
    destruct (loop_mu1 n d x o eps M (reachable_wf n o Hr) Hl Hx (silent_zr x HS) E Em FM) as (M' & E' & F' & V').
    rewrite <- Ee in E'. exists o', y, e, w, M'. split; [exact ER|]. split; [|split; [exact E'|exact V']].
    apply (C88_no_warning n o o' eps M M' d x y e w); auto.
  Qed.
End Float.

(** ** Exact arithmetic *)
Section Exact.
  Variable solve : list (list R) -> list (list R) -> option (list (list R)).
  #[local] Hint Extern 0 (Num R) => exact (RNum solve) : typeclass_instances.
  Notation isz := (fun a : R => a = 0).

  Lemma Rdot_z_r u v : Forall isz v -> Rdot u v = 0.
  Proof.
    intros H. revert u. induction H as [|a v Ha _ IH]; intros [|b u]; try reflexivity. change (b * a + Rdot u v = 0). rewrite IH, Ha. ring.
  Qed.
  Lemma Rdot_z_l u v : Forall isz u -> Rdot u v = 0.
  Proof.
    intros H. revert v. induction H as [|a u Ha _ IH]; intros [|b v]; try reflexivity. change (a * b + Rdot u v = 0). rewrite IH, Ha. ring.
  Qed.
  Lemma colz j (A : list (list R)) : Forall (Forall isz) A -> Forall isz (column j A).
  Proof.
    intros H. unfold column. apply Forall_map. eapply Forall_impl; [|exact H]. intros r Hr. change (nth j r 0 = 0).
    destruct (Nat.lt_ge_cases j (length r)) as [Hj|Hj]; [rewrite Forall_nth in Hr; apply Hr; exact Hj|apply nth_overflow, Hj].
  Qed.
  Lemma mmz c (A B : list (list R)) : (forall ra j, In ra A -> Rdot ra (column j B) = 0) -> Forall (Forall isz) (mm c A B).
  Proof.
    intros H. unfold mm. apply Forall_map, Forall_forall. intros ra Hra. apply Forall_map, Forall_forall. intros cb Hcb.
    unfold transpose in Hcb. apply in_map_iff in Hcb as (j & <- & _). apply H, Hra.
  Qed.

  Lemma rls_R_silent n mu M x : length M = n -> rowsl n M -> length x = n -> Forall isz x -> mu <> 0 ->
    forall i j, (i < n)%nat -> (j < n)%nat -> ent (rls_R mu M x) i j = ent M i j / mu.
  Proof.
    intros LM RM Lx Zx Hmu i j Hi Hj. unfold rls_R. rewrite Lx. cbv zeta.
    assert (HO : Forall (Forall isz) (outer x x)).
    { unfold outer. apply Forall_map. eapply Forall_impl; [|exact Zx]. intros a Ha. apply Forall_map. eapply Forall_impl; [|exact Zx].
      intros b Hb. change (a * b = 0). rewrite Hb. ring. }
    assert (H1 : Forall (Forall isz) (mm n M (outer x x))).
    { apply mmz. intros ra k _. apply Rdot_z_r, colz, HO. }
    assert (H2 : Forall (Forall isz) (mm n (mm n M (outer x x)) M)).
    { apply mmz. intros ra k Hra. apply Rdot_z_l. rewrite Forall_forall in H1. apply H1, Hra. }
    assert (L2 : shape n n (mm n (mm n M (outer x x)) M)).
    { split; [rewrite !mm_length; exact LM|apply mm_rows]. }
    assert (ED : ndot (map (fun c => ndot x c) (transpose n M)) x = 0) by (apply (Rdot_z_r _ x), Zx). rewrite ED.
    set (B := mm n (mm n M (outer x x)) M) in *. set (R2 := nadd mu 0).
    assert (ER2 : R2 = mu) by (unfold R2; apply Rplus_0_r). rewrite ER2.
    assert (HB : ent B i j = 0).
    { unfold ent. rewrite Forall_nth in H2. destruct L2 as (La & Lb). specialize (H2 i [] ltac:(lia)). rewrite Forall_nth in H2. apply H2.
      unfold rowsl in *. rewrite Forall_nth in Lb. rewrite Lb by lia. exact Hj. }
    assert (SM : shape n n M) by (split; assumption).
    pose proof (map2m_ent n n (fun r r1 => r - r1 / mu) M B i j SM L2 Hi Hj) as HE. rewrite HB in HE.
    set (A := map2 (map2 (fun r r1 => r - r1 / mu)) M B) in *.
    assert (SA : shape n n A) by (apply map2m_shape; assumption). destruct SA as (LA & RA).
    change (ent (mscale (1 / mu) A) i j = ent M i j / mu). unfold ent at 1, mscale.
    rewrite (map_nth_lt _ _ _ ([] : list R)) by lia. unfold vscale.
    rewrite (map_nth_lt _ _ _ 0) by (unfold rowsl in RA; rewrite Forall_nth in RA; rewrite RA by lia; exact Hj).
    change (1 / mu * ent A i j = ent M i j / mu). rewrite HE. field. exact Hmu.
  Qed.

  (** *** exact arithmetic: silence leaves the weights alone; the matrix grows by 1 / mu per sample *)
  Theorem C88_exact : forall n (o : obj R) eps M d x,
    reachable n o -> o_ext o = XRLS eps M -> o_mu o <> 0 -> length d = length x -> x <> [] -> rows_of n x -> Forall (Forall isz) x ->
    exists o' y e w, run d x o = (o', Ok (y, e, w)) /\ o_w o' = o_w o /\
      forall i j, (i < n)%nat -> (j < n)%nat -> R_entry 0 o' i j = R_entry 0 o i j / o_mu o ^ length x.
  Proof.
    intros n o eps M d x Hr E Hmu Hl Hne Hx HZ. apply reachable_wf in Hr.
    assert (G : forall d x (o : obj R) M, wf n o -> o_ext o = XRLS eps M -> o_mu o <> 0 -> length d = length x -> rows_of n x -> Forall (Forall isz) x ->
      snd (adapt_all d x o) = Ok tt /\ o_w (fst (adapt_all d x o)) = o_w o /\
      exists M', o_ext (fst (adapt_all d x o)) = XRLS eps M' /\ forall i j, (i < n)%nat -> (j < n)%nat -> ent M' i j = ent M i j / o_mu o ^ length x).
    { clear. induction d as [|d0 d IH]; intros [|x0 x] o M Hwf E Hmu Hl Hx HZ; try discriminate.
      - cbn [adapt_all length pow]. split; [reflexivity|]. split; [reflexivity|]. exists M. split; [exact E|]. intros. field.
      - pose proof (Forall_inv Hx) as Lx. cbn beta in Lx. pose proof (Forall_inv HZ) as Zx. cbn beta in Zx.
        pose proof Hwf as (Lw & _ & HX). rewrite E in HX. cbn in HX. destruct HX as (LM & RM).
        assert (Hm : neqb (o_mu o) n0 = false).
        { change ((if Req_EM_T (o_mu o) 0 then true else false) = false). destruct (Req_EM_T (o_mu o) 0); [contradiction|reflexivity]. }
        pose proof (adapt_RLS n o d0 x0 eps M Hwf Lx E Hm) as HA. cbv zeta in HA.
        destruct (adapt_ok n o d0 x0 Hwf Lx) as (o1 & r1 & E1 & Hwf1 & _). rewrite HA in E1. apply pair_equal_spec in E1 as (E1 & _).
        cbn [adapt_all]. unfold bind. rewrite HA. set (o2 := set_w _ _) in *. 
        assert (W2 : o_w o2 = o_w o).
        { unfold o2. cbn [set_w o_w]. destruct (rls_R_shape (o_mu o) n M x0 LM RM Lx) as (LR & _).
          revert LR. generalize (rls_R (o_mu o) M x0), (nsub d0 (ndot (o_w o) x0)). intros A e LA. rewrite <- Lw in LA. clear -LA Zx.
          revert LA. generalize (o_w o). induction A as [|r A IH]; intros [|a w] LA; try discriminate; [reflexivity|]. cbn [mv map map2]. f_equal.
          - change (a + Rdot r x0 * e = a). rewrite Rdot_z_r by exact Zx. ring.
          - apply IH. cbn in LA. lia. }
        destruct (IH x o2 (rls_R (o_mu o) M x0)) as (I1 & I2 & M' & I3 & I4).
        + rewrite E1. exact Hwf1.
        + reflexivity.
        + exact Hmu.
        + cbn in Hl. lia.
        + exact (Forall_inv_tail Hx).
        + exact (Forall_inv_tail HZ).
        + split; [exact I1|]. split; [congruence|]. exists M'. split; [exact I3|]. intros i j Hi Hj. rewrite I4 by auto.
          rewrite (rls_R_silent n) by auto. change (o_mu o2) with (o_mu o). cbn [length pow]. field.
          split; [apply pow_nonzero; exact Hmu|exact Hmu]. }
    destruct (G d x o M Hr E Hmu Hl Hx HZ) as (HO & HW & M' & HE & HEnt). clear G.
    destruct (run_eq n o d x Hr Hx Hl Hne) as (h & ER & _). rewrite HO in ER. cbn [rmap] in ER.
    eexists _, _, _, _. split; [exact ER|]. split; [exact HW|]. intros i j Hi Hj. unfold R_entry. cbn [set_hist o_ext]. rewrite HE, E. apply HEnt; auto.
  Qed.
End Exact.

(** ** A concrete case: the default RLS filter (mu = 0.1, eps = 0.001) of two taps, after two samples of data *)
Definition windup_kw : kwargs float := mkKw (Some 2%Z) None (Some (WStr "zeros")) None None None None None None None None false.
Definition windup_new : obj float := match @new_filter _ round_num (fun k => repeat PrimFloat.zero k) KRLS windup_kw with Ok o => o | Err _ => round_filter end.
Definition windup_filter : obj float := fst (@run _ round_num [PrimFloat.one; tenth] [[PrimFloat.one; tenth]; [tenth; PrimFloat.two]] windup_new).
Definition silence (k : nat) : list (list float) := repeat [PrimFloat.zero; PrimFloat.zero] k.
Definition after_silence (k : nat) : list float := o_w (fst (@run _ round_num (repeat PrimFloat.one k) (silence k) windup_filter)).

Example C88_hypotheses :
  @reachable _ round_num 2 windup_filter /\ o_mu windup_filter = tenth /\ fin tenth /\ 0 < val tenth < 1 /\
  (exists eps M, o_ext windup_filter = XRLS eps M) /\
  (let r := R_entry PrimFloat.zero windup_filter 0 0 in fin r /\ / 2 ^ 1022 <= Rabs (val r) /\
     2 ^ 1024 <= ((1 - uro) ^ 2 / val tenth) ^ 360 * Rabs (val r)) /\
  (forall k, silent (silence k) /\ rows_of 2 (silence k)) /\
  (* 300 samples of silence change nothing, 312 destroy the filter *)
  forallb finb (o_w windup_filter) = true /\ after_silence 300 = o_w windup_filter /\ after_silence 312 = [nan; nan].
Proof.
  assert (VT : val tenth = Q2R (valQ tenth)) by apply val_Q.
  assert (T : / 11 <= val tenth <= / 9).
  { rewrite VT. split; [replace (/ 11) with (Q2R (QArith_base.Qmake 1 11)) by (unfold Q2R; cbn; lra)|replace (/ 9) with (Q2R (QArith_base.Qmake 1 9)) by (unfold Q2R; cbn; lra)];
      apply Qle_Rle; vm_compute; discriminate. }
  assert (VR : 1 <= val (R_entry PrimFloat.zero windup_filter 0 0)).
  { rewrite val_Q. replace 1 with (Q2R (QArith_base.Qmake 1 1)) by (unfold Q2R; cbn; lra). apply Qle_Rle. vm_compute. discriminate. }
  split.
  { apply (@reach_op _ round_num 2 windup_new (OpRun [PrimFloat.one; tenth] [[PrimFloat.one; tenth]; [tenth; PrimFloat.two]])).
    - apply (@reach_new _ round_num 2 (fun k => repeat PrimFloat.zero k) KRLS windup_kw); [intros k; apply repeat_length|split; discriminate|reflexivity|].
      vm_compute. reflexivity.
    - repeat constructor. }
  split; [vm_compute; reflexivity|]. split; [exact I|]. split; [lra|]. split; [eexists _, _; vm_compute; reflexivity|]. split.
  { cbv zeta. split; [apply finb_ok; vm_compute; reflexivity|]. rewrite Rabs_pos_eq by lra. split.
    - apply Rle_trans with 1; [|exact VR]. rewrite <- Rinv_1. apply Rinv_le_contravar; [lra|]. apply pow_R1_Rle. lra.
    - apply Rle_trans with (8 ^ 360 * 1).
      + rewrite Rmult_1_r. replace 8 with (2 ^ 3) by lra. rewrite <- pow_mult. apply Rle_pow; [lra|]. apply Nat.leb_le. vm_compute. reflexivity.
      + apply Rmult_le_compat; [apply pow_le; lra|lra| |exact VR]. apply pow_incr. split; [lra|].
        assert (U1 : 0 < uro <= / 1000). { split; [apply uro_pos|]. unfold uro. apply Rinv_le_contravar; [lra|]. apply Rle_trans with (2 ^ 10); [lra|]. apply Rle_pow; [lra|lia]. }
        apply (Rmult_le_reg_r (val tenth)); [lra|]. unfold Rdiv. rewrite Rmult_assoc, Rinv_l by lra. nra. }
  split.
  { intros k. split; apply Forall_forall; intros r Hr; apply repeat_spec in Hr; subst r; [repeat constructor|reflexivity]. }
  split; [vm_compute; reflexivity|]. split; vm_compute; reflexivity.
Qed.
