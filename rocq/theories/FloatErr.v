(** Rounding of the kernel's binary64 operations, through Flocq (which has no axioms of its own). *)
From Coq Require Import ZArith Reals Lra Psatz Uint63 FloatOps FloatAxioms SpecFloat.
From Coq Require PrimFloat.
From Flocq Require Import Core BinarySingleNaN Relative Plus_error.
From Flocq Require IEEE754.PrimFloat.
Notation float := PrimFloat.float.
Open Scope R_scope.

(** ** Specification *)
(** the number a binary64 stands for (0 for infinities and nan) *)
Definition val (a : float) : R :=
  match Prim2SF a with
  | S754_finite s m e => (if s then -1 else 1) * IZR (Zpos m) * powerRZ 2 e
  | _ => 0
  end.
(** neither infinite nor nan *)
Definition fin (a : float) : Prop := match Prim2SF a with S754_finite _ _ _ | S754_zero _ => True | _ => False end.
(** the unit roundoff and half the smallest positive binary64 *)
Definition uro : R := / 2 ^ 53.
Definition eta : R := / 2 ^ 1075.

(** ** Link to Flocq *)
#[local] Existing Instance Flocq.IEEE754.PrimFloat.Hprec.
#[local] Existing Instance Flocq.IEEE754.PrimFloat.Hmax.
#[local] Notation B := Flocq.IEEE754.PrimFloat.Prim2B.
Lemma val_B a : val a = B2R (B a).
Proof.
  unfold val. rewrite <- Flocq.IEEE754.PrimFloat.B2SF_Prim2B. destruct (B a) as [s|s| |s m e Hm]; try reflexivity.
  cbn [B2SF B2R]. unfold F2R. cbn [Fnum Fexp]. rewrite bpow_powerRZ. change (IZR radix2) with 2.
  destruct s; cbn [cond_Zopp]; [|ring]. change (IZR (- Z.pos m)) with (- IZR (Z.pos m)). ring.
Qed.
Lemma fin_B a : fin a <-> is_finite (B a) = true.
Proof.
  unfold fin. rewrite <- Flocq.IEEE754.PrimFloat.B2SF_Prim2B. destruct (B a) as [s|s| |s m e Hm]; cbn; split; intros; auto; discriminate || contradiction.
Qed.

Lemma uro_pos : 0 < uro.
Proof. apply Rinv_0_lt_compat, pow_lt. lra. Qed.
Lemma eta_pos : 0 < eta.
Proof. apply Rinv_0_lt_compat, pow_lt. lra. Qed.
Lemma uro_bpow : uro = / 2 * bpow radix2 (- FloatOps.prec + 1).
Proof. unfold uro. change (- FloatOps.prec + 1)%Z with (-52)%Z. simpl. lra. Qed.
Lemma eta_bpow : eta = / 2 * bpow radix2 (SpecFloat.emin FloatOps.prec FloatOps.emax).
Proof.
  unfold eta. change (SpecFloat.emin FloatOps.prec FloatOps.emax) with (-(1074))%Z. rewrite bpow_opp.
  change (/ 2) with (/ bpow radix2 1). rewrite <- Rinv_mult, <- bpow_plus. f_equal.
  rewrite bpow_powerRZ. change (1 + 1074)%Z with (Z.of_nat 1075). rewrite <- pow_powerRZ. reflexivity.
Qed.

Notation rnd := (round radix2 (SpecFloat.fexp FloatOps.prec FloatOps.emax) (round_mode mode_NE)).
Lemma rnd_mul r : exists d h, Rabs d <= uro /\ Rabs h <= eta /\ rnd r = r * (1 + d) + h.
Proof.
  destruct (error_N_FLT radix2 (SpecFloat.emin FloatOps.prec FloatOps.emax) FloatOps.prec eq_refl (fun x => negb (Z.even x)) r)
    as (d & h & Hd & Hh & _ & E).
  exists d, h. rewrite uro_bpow, eta_bpow. split; [exact Hd|]. split; [exact Hh|exact E].
Qed.
Lemma rnd_add a b : exists d, Rabs d <= uro /\ rnd (B2R (B a) + B2R (B b)) = (B2R (B a) + B2R (B b)) * (1 + d).
Proof.
  destruct (FLT_plus_error_N_ex radix2 (SpecFloat.emin FloatOps.prec FloatOps.emax) FloatOps.prec (fun x => negb (Z.even x)) (B2R (B a)) (B2R (B b))) as (d & Hd & E).
  - apply generic_format_B2R.
  - apply generic_format_B2R.
  - exists d. split; [|exact E]. eapply Rle_trans; [exact Hd|].
    eapply Rle_trans; [apply u_rod1pu_ro_le_u_ro|]. rewrite uro_bpow. right. reflexivity.
Qed.

Lemma overflow_not_fin (x : binary_float FloatOps.prec FloatOps.emax) s : B2SF x = binary_overflow FloatOps.prec FloatOps.emax mode_NE s -> is_finite x = false.
Proof. destruct x; cbn; intros H; try reflexivity; discriminate. Qed.

(** ** The four operations, when the result is finite *)
Lemma add_parts a b : is_finite (Bplus mode_NE a b) = true -> is_finite (prec := FloatOps.prec) (emax := FloatOps.emax) a = true /\ is_finite b = true.
Proof. destruct a as [s|s| |s m e H], b as [s'|s'| |s' m' e' H']; cbn; intros E; try (split; [reflexivity|reflexivity] || discriminate); destruct (Bool.eqb s s'); discriminate. Qed.
Lemma add_fin a b : fin (PrimFloat.add a b) -> fin a /\ fin b.
Proof. rewrite !fin_B, Flocq.IEEE754.PrimFloat.add_equiv. apply add_parts. Qed.
Lemma add_round a b : fin (PrimFloat.add a b) -> val (PrimFloat.add a b) = rnd (val a + val b).
Proof.
  intros H. destruct (add_fin a b H) as (Ha & Hb). rewrite fin_B in *. rewrite !val_B.
  rewrite Flocq.IEEE754.PrimFloat.add_equiv in *.
  pose proof (Bplus_correct FloatOps.prec FloatOps.emax Flocq.IEEE754.PrimFloat.Hprec Flocq.IEEE754.PrimFloat.Hmax mode_NE (B a) (B b) Ha Hb) as C.
  destruct (Rlt_bool _ _); [apply C|]. destruct C as (C & _). apply overflow_not_fin in C. congruence.
Qed.
Lemma add_err a b : fin (PrimFloat.add a b) -> exists d, Rabs d <= uro /\ val (PrimFloat.add a b) = (val a + val b) * (1 + d).
Proof. intros H. rewrite (add_round a b H), !val_B. apply rnd_add. Qed.

Lemma sub_opp a b : fin (PrimFloat.sub a b) -> fin a /\ fin b /\ val (PrimFloat.sub a b) = rnd (val a - val b).
Proof.
  intros H. rewrite !fin_B in *. rewrite !val_B. rewrite Flocq.IEEE754.PrimFloat.sub_equiv in *.
  assert (Hp : is_finite (B a) = true /\ is_finite (B b) = true).
  { revert H. generalize (B a) (B b). clear. intros a b.
    destruct a as [s|s| |s m e H], b as [s'|s'| |s' m' e' H']; cbn; intros E; try (split; [reflexivity|reflexivity] || discriminate); destruct (Bool.eqb s (negb s')); discriminate. }
  destruct Hp as (Ha & Hb). split; [exact Ha|]. split; [exact Hb|].
  pose proof (Bminus_correct FloatOps.prec FloatOps.emax Flocq.IEEE754.PrimFloat.Hprec Flocq.IEEE754.PrimFloat.Hmax mode_NE (B a) (B b) Ha Hb) as C.
  destruct (Rlt_bool _ _); [apply C|]. destruct C as (C & _). apply overflow_not_fin in C. congruence.
Qed.
Lemma sub_err a b : fin (PrimFloat.sub a b) -> exists d, Rabs d <= uro /\ val (PrimFloat.sub a b) = (val a - val b) * (1 + d).
Proof.
  intros H. destruct (sub_opp a b H) as (_ & _ & ->).
  replace (val a - val b) with (B2R (B a) + B2R (B (PrimFloat.opp b))).
  - apply rnd_add.
  - rewrite Flocq.IEEE754.PrimFloat.opp_equiv, B2R_Bopp, !val_B. ring.
Qed.

Lemma mul_round a b : fin (PrimFloat.mul a b) -> fin a /\ fin b /\ val (PrimFloat.mul a b) = rnd (val a * val b).
Proof.
  intros H. rewrite !fin_B in *. rewrite !val_B. rewrite Flocq.IEEE754.PrimFloat.mul_equiv in *.
  pose proof (Bmult_correct FloatOps.prec FloatOps.emax Flocq.IEEE754.PrimFloat.Hprec Flocq.IEEE754.PrimFloat.Hmax mode_NE (B a) (B b)) as C.
  destruct (Rlt_bool _ _).
  - destruct C as (C1 & C2 & _). rewrite C2 in H. apply andb_prop in H as (H1 & H2). auto.
  - apply overflow_not_fin in C. congruence.
Qed.
Lemma mul_err a b : fin (PrimFloat.mul a b) -> exists d h, Rabs d <= uro /\ Rabs h <= eta /\ val (PrimFloat.mul a b) = val a * val b * (1 + d) + h.
Proof. intros H. destruct (mul_round a b H) as (_ & _ & ->). apply rnd_mul. Qed.

Lemma div_round a b : fin (PrimFloat.div a b) -> fin b -> val b <> 0 -> fin a /\ val (PrimFloat.div a b) = rnd (val a / val b).
Proof.
  intros H Hb H0. rewrite !fin_B in *. rewrite !val_B in *. rewrite Flocq.IEEE754.PrimFloat.div_equiv in *.
  pose proof (Bdiv_correct FloatOps.prec FloatOps.emax Flocq.IEEE754.PrimFloat.Hprec Flocq.IEEE754.PrimFloat.Hmax mode_NE (B a) (B b) H0) as C.
  destruct (Rlt_bool _ _).
  - destruct C as (C1 & C2 & _). rewrite C2 in H. auto.
  - apply overflow_not_fin in C. congruence.
Qed.
Lemma div_err a b : fin (PrimFloat.div a b) -> fin b -> val b <> 0 ->
  exists d h, Rabs d <= uro /\ Rabs h <= eta /\ val (PrimFloat.div a b) = val a / val b * (1 + d) + h.
Proof. intros H Hb H0. destruct (div_round a b H Hb H0) as (_ & ->). apply rnd_mul. Qed.
