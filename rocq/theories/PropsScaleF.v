(** C121: the choice of units, in IEEE binary64.
    Over the real numbers a change of units is invisible (C57).  In binary64 it is not, in general: measuring the targets in a
    unit three times smaller gives other digits.  With factors that are powers of two it is: every output, error and weight is
    the same number in the new units, digit for digit, as long as no product or quotient underflows and nothing overflows. *)
From Coq Require Import ZArith QArith Qreals Reals Lra Lia Psatz Permutation Uint63 FloatOps FloatAxioms SpecFloat.
From Coq Require PrimFloat.
From Flocq Require Import Core BinarySingleNaN Plus_error Mult_error.
From Flocq Require IEEE754.PrimFloat.
From Verif Require Import Py Num NumF Numpy Filters Registry Spec StructProofs RunProofs Reach RMat RVec RFilter PropsStability PropsAlgebra PropsTracking FloatErr PropsRound PropsRoundRun PropsNoOverflow PropsGrid.
Open Scope R_scope.
#[local] Existing Instance Flocq.IEEE754.PrimFloat.Hprec.
#[local] Existing Instance Flocq.IEEE754.PrimFloat.Hmax.
#[local] Notation sqrt := R_sqrt.sqrt.
#[local] Notation bin := Flocq.IEEE754.PrimFloat.Prim2B.

(** ** Specification *)
(** the second number is the first times 2^p, exactly *)
Definition scaled (p : Z) (a b : float) : Prop := fin a /\ fin b /\ val b = val a * powerRZ 2 p.

(** an arithmetic that refuses to underflow: binary64, except that a product or quotient of non-zero numbers which comes out
    below 2^-900 in magnitude is replaced by nan (and so is an infinite product) *)
Definition is_zero (a : float) : bool := match Prim2SF a with S754_zero _ => true | _ => false end.
Definition too_small (a : float) : bool :=
  match Prim2SF a with S754_zero _ => true | S754_finite _ m e => (Z.log2 (Zpos m) + e <? -900)%Z | _ => false end.
Definition tmul (a b : float) : float :=
  if finb (PrimFloat.mul a b) && negb (negb (is_zero a) && negb (is_zero b) && too_small (PrimFloat.mul a b)) then PrimFloat.mul a b else PrimFloat.nan.
Definition tdiv (a b : float) : float :=
  if negb (is_zero a) && too_small (PrimFloat.div a b) then PrimFloat.nan else PrimFloat.div a b.
Fixpoint tpown (x : float) (k : nat) : float :=
  match k with O => PrimFloat.one | Datatypes.S O => x | Datatypes.S k' => tmul (tpown x k') x end.
(** an inner product is accepted if each of its products is finite and does not underflow *)
Definition tdot (dot : list float -> list float -> float) (u v : list float) : float :=
  if forallb (fun p => finb (tmul (fst p) (snd p))) (combine u v) then dot u v else PrimFloat.nan.
Definition FNumT (solve : list (list float) -> list (list float) -> option (list (list float)))
  (tanh exp : float -> float) (power : float -> float -> float) (sum : list float -> float) (dot : list float -> list float -> float)
  : Num float := {|
    nadd := PrimFloat.add; nsub := PrimFloat.sub; nmul := tmul; ndiv := tdiv;
    nopp := PrimFloat.opp; nabs := PrimFloat.abs; nsign := fsgn; npown := tpown; npow := power;
    nexp := exp; ntanh := tanh; nsqrt := PrimFloat.sqrt; nlog10 := fun _ => PrimFloat.nan;
    nltb := PrimFloat.ltb; nleb := PrimFloat.leb; neqb := PrimFloat.eqb;
    nofZ := f_of_Z;
    nofQ := fun q => PrimFloat.div (f_of_Z (Qnum q)) (f_of_Z (Zpos (Qden q)));
    ntrunc := f_trunc;
    nsum := sum; ndot := tdot dot; nsolve := solve |}.

(** an evaluation plan of an inner product: in which order and bracketing the products are added, and where a fused
    multiply-add is used; and the results it can give *)
Inductive plan : Type := PZero | PMul (i : nat) | PAdd (p q : plan) | PFma (i : nat) (p : plan).
Inductive follows (u v : list float) : plan -> float -> Prop :=
| fo_zero : follows u v PZero PrimFloat.zero
| fo_mul i : follows u v (PMul i) (PrimFloat.mul (nth i u PrimFloat.zero) (nth i v PrimFloat.zero))
| fo_add p q a b : follows u v p a -> follows u v q b -> follows u v (PAdd p q) (PrimFloat.add a b)
| fo_fma i p a r : follows u v p a -> fused (nth i u PrimFloat.zero) (nth i v PrimFloat.zero) a r -> follows u v (PFma i p) r.

(** how the settings of each class change when inputs are multiplied by 2^s and targets by 2^t *)
Definition converted (s t : Z) (o o2 : obj float) : Prop :=
  match o_ext o, o_ext o2 with
  | XLMS, XLMS => scaled (-2 * s) (o_mu o) (o_mu o2)
  | XLMF, XLMF => scaled (-2 * s - 2 * t) (o_mu o) (o_mu o2)
  | XSSLMS, XSSLMS => scaled (t - s) (o_mu o) (o_mu o2)
  | XNLMS eps, XNLMS eps2 => scaled 0 (o_mu o) (o_mu o2) /\ scaled (2 * s) eps eps2
  | XNLMF eps, XNLMF eps2 => scaled (-2 * t) (o_mu o) (o_mu o2) /\ scaled (2 * s) eps eps2
  | XNSSLMS eps, XNSSLMS eps2 => scaled (s + t) (o_mu o) (o_mu o2) /\ scaled (2 * s) eps eps2
  | XLlncosh l, XLlncosh l2 => scaled (t - 2 * s) (o_mu o) (o_mu o2) /\ scaled (- t) l l2
  | _, _ => False
  end.

(** ** Rounding commutes with powers of two *)
#[local] Notation fexp64 := (SpecFloat.fexp FloatOps.prec FloatOps.emax).
Lemma mag_normal v : bpow radix2 (-1022) <= Rabs v -> (-1021 <= mag radix2 v)%Z.
Proof. intros H. change (-1021)%Z with (-1022 + 1)%Z. apply mag_ge_bpow. replace (-1022 + 1 - 1)%Z with (-1022)%Z by lia. exact H. Qed.
Lemma big_nz v e : bpow radix2 e <= Rabs v -> v <> 0.
Proof. intros H ->. rewrite Rabs_R0 in H. pose proof (bpow_gt_0 radix2 e). lra. Qed.
Lemma rnd_scale v p : (v = 0 \/ bpow radix2 (-1022) <= Rabs v /\ bpow radix2 (-1022) <= Rabs (v * bpow radix2 p)) ->
  rnd (v * bpow radix2 p) = rnd v * bpow radix2 p.
Proof.
  intros [-> | (H1 & H2)].
  - rewrite Rmult_0_l, !round_0 by apply valid_rnd_round_mode. ring.
  - pose proof (big_nz _ _ H1) as Hv. pose proof (mag_normal _ H1) as M1. pose proof (mag_normal _ H2) as M2. rewrite mag_mult_bpow in M2 by exact Hv.
    unfold round, F2R. cbn [Fnum Fexp].
    assert (E : cexp radix2 fexp64 (v * bpow radix2 p) = (cexp radix2 fexp64 v + p)%Z).
    { unfold cexp. rewrite mag_mult_bpow by exact Hv. unfold SpecFloat.fexp, SpecFloat.emin, FloatOps.prec, FloatOps.emax. lia. }
    assert (E2 : scaled_mantissa radix2 fexp64 (v * bpow radix2 p) = scaled_mantissa radix2 fexp64 v).
    { unfold scaled_mantissa. rewrite E, Rmult_assoc, <- bpow_plus. f_equal. f_equal. lia. }
    rewrite E2, E, bpow_plus. ring.
Qed.
Lemma rnd_format v : generic_format radix2 fexp64 v -> rnd v = v.
Proof. intros H. apply round_generic; [apply valid_rnd_round_mode|exact H]. Qed.
Lemma sum_format a b : generic_format radix2 fexp64 a -> generic_format radix2 fexp64 b -> Rabs (a + b) <= bpow radix2 (-1021) ->
  generic_format radix2 fexp64 (a + b).
Proof. intros Ha Hb H. change fexp64 with (FLT_exp (-1074) 53) in *. apply FLT_format_plus_small; auto; reflexivity. Qed.
Lemma rnd_sum_pos a b p : (0 <= p)%Z -> generic_format radix2 fexp64 a -> generic_format radix2 fexp64 b ->
  rnd ((a + b) * bpow radix2 p) = rnd (a + b) * bpow radix2 p.
Proof.
  intros Hp Ha Hb. destruct (Rle_lt_dec (bpow radix2 (-1022)) (Rabs (a + b))) as [H|H].
  - apply rnd_scale. right. split; [exact H|]. rewrite Rabs_mult, (Rabs_pos_eq (bpow radix2 p)) by apply bpow_ge_0.
    eapply Rle_trans; [exact H|]. rewrite <- (Rmult_1_r (Rabs (a + b))) at 1. apply Rmult_le_compat_l; [apply Rabs_pos|].
    change 1 with (bpow radix2 0). apply bpow_le. exact Hp.
  - assert (F : generic_format radix2 fexp64 (a + b)).
    { apply sum_format; auto. left. eapply Rlt_trans; [exact H|]. apply bpow_lt. lia. }
    rewrite (rnd_format (a + b) F). apply rnd_format. change fexp64 with (FLT_exp (-1074) 53) in *. apply mult_bpow_pos_exact_FLT; auto.
Qed.
Lemma rnd_sum a b a' b' p : generic_format radix2 fexp64 a -> generic_format radix2 fexp64 b -> generic_format radix2 fexp64 a' -> generic_format radix2 fexp64 b' ->
  a' = a * bpow radix2 p -> b' = b * bpow radix2 p -> rnd (a' + b') = rnd (a + b) * bpow radix2 p.
Proof.
  intros Ha Hb Ha' Hb' Ea Eb. destruct (Z_le_gt_dec 0 p) as [Hp|Hp].
  - rewrite Ea, Eb, <- Rmult_plus_distr_r. apply rnd_sum_pos; auto.
  - assert (B1 : bpow radix2 p * bpow radix2 (- p) = 1) by (rewrite <- bpow_plus; replace (p + - p)%Z with 0%Z by lia; reflexivity).
    assert (Ea2 : a = a' * bpow radix2 (- p)) by (rewrite Ea, Rmult_assoc, B1; ring).
    assert (Eb2 : b = b' * bpow radix2 (- p)) by (rewrite Eb, Rmult_assoc, B1; ring).
    rewrite Ea2, Eb2, <- Rmult_plus_distr_r, (rnd_sum_pos a' b' (- p)) by (auto; lia).
    rewrite Rmult_assoc, (Rmult_comm (bpow radix2 (- p))), B1. ring.
Qed.

(** ** The operations *)
Lemma pow_b p : powerRZ 2 p = bpow radix2 p.
Proof. rewrite bpow_powerRZ. reflexivity. Qed.
Lemma scaled_b p a b : scaled p a b <-> fin a /\ fin b /\ val b = val a * bpow radix2 p.
Proof. unfold scaled. rewrite pow_b. tauto. Qed.
Lemma fmt a : generic_format radix2 fexp64 (val a).
Proof. apply fin_format. Qed.
Lemma scaled_add p a b a' b' : scaled p a a' -> scaled p b b' -> fin (PrimFloat.add a b) -> fin (PrimFloat.add a' b') ->
  scaled p (PrimFloat.add a b) (PrimFloat.add a' b').
Proof.
  rewrite !scaled_b. intros (Fa & Fa' & Ea) (Fb & Fb' & Eb) H H'. split; [exact H|]. split; [exact H'|].
  rewrite !add_round by assumption. apply rnd_sum; auto using fmt.
Qed.
Lemma scaled_sub p a b a' b' : scaled p a a' -> scaled p b b' -> fin (PrimFloat.sub a b) -> fin (PrimFloat.sub a' b') ->
  scaled p (PrimFloat.sub a b) (PrimFloat.sub a' b').
Proof.
  rewrite !scaled_b. intros (Fa & Fa' & Ea) (Fb & Fb' & Eb) H H'. split; [exact H|]. split; [exact H'|].
  destruct (sub_opp a b H) as (_ & _ & ->). destruct (sub_opp a' b' H') as (_ & _ & ->).
  unfold Rminus. apply rnd_sum; auto using fmt, generic_format_opp. rewrite Eb. ring.
Qed.
Lemma zero_val a : is_zero a = true -> val a = 0.
Proof. unfold is_zero, val. destruct (Prim2SF a); intros; (reflexivity || discriminate). Qed.
Lemma nonzero_val a : fin a -> is_zero a = false -> val a <> 0.
Proof.
  unfold fin, is_zero, val. destruct (Prim2SF a) as [s|s| |s m e]; intros F E; try contradiction; try discriminate.
  apply Rmult_integral_contrapositive_currified; [apply Rmult_integral_contrapositive_currified|].
  - destruct s; lra.
  - apply not_0_IZR. discriminate.
  - apply powerRZ_NOR. lra.
Qed.
Lemma large_enough a : fin a -> too_small a = false -> bpow radix2 (-900) <= Rabs (val a).
Proof.
  unfold fin, too_small, val. destruct (Prim2SF a) as [s|s| |s m e]; intros F E; try contradiction; try discriminate.
  apply Z.ltb_ge in E. rewrite pow_b, !Rabs_mult, (Rabs_pos_eq (bpow radix2 e)) by apply bpow_ge_0.
  replace (Rabs (if s then -1 else 1)) with 1 by (destruct s; [rewrite Rabs_left by lra; lra|rewrite Rabs_R1; reflexivity]).
  rewrite Rmult_1_l, <- abs_IZR. cbn [Z.abs].
  apply Rle_trans with (bpow radix2 (Z.log2 (Zpos m)) * bpow radix2 e).
  - rewrite <- bpow_plus. apply bpow_le. exact E.
  - apply Rmult_le_compat_r; [apply bpow_ge_0|]. rewrite <- IZR_Zpower by apply Z.log2_nonneg. apply IZR_le.
    change (Z.pow_pos radix2) with (Z.pow_pos 2). apply (proj1 (Z.log2_spec (Zpos m) eq_refl)).
Qed.
Lemma nan_not_fin : ~ fin PrimFloat.nan.
Proof. intros H. exact H. Qed.
(** the exact product of two numbers whose product is accepted *)
Definition clean (z : R) : Prop := z = 0 \/ bpow radix2 (-901) <= Rabs z.
Lemma rnd_lt z : Rabs z < bpow radix2 (-901) -> Rabs (rnd z) <= bpow radix2 (-901).
Proof.
  intros H. apply abs_round_le_generic; [apply FLT_exp_valid; reflexivity|apply valid_rnd_round_mode| |left; exact H].
  apply generic_format_bpow. unfold SpecFloat.fexp, SpecFloat.emin, FloatOps.prec, FloatOps.emax. lia.
Qed.
Lemma tmul_clean a b : fin (tmul a b) -> tmul a b = PrimFloat.mul a b /\ fin a /\ fin b /\ clean (val a * val b) /\ val (PrimFloat.mul a b) = rnd (val a * val b).
Proof.
  unfold tmul. destruct (finb (PrimFloat.mul a b)); [|intros H; destruct (nan_not_fin H)]. cbn [andb]. destruct (is_zero a) eqn:Za; cbn [negb andb].
  - intros H. destruct (mul_round a b H) as (Fa & Fb & E). repeat (split; [auto|]); [|exact E]. left. rewrite (zero_val a Za). ring.
  - destruct (is_zero b) eqn:Zb; cbn [negb andb].
    + intros H. destruct (mul_round a b H) as (Fa & Fb & E). repeat (split; [auto|]); [|exact E]. left. rewrite (zero_val b Zb). ring.
    + destruct (too_small (PrimFloat.mul a b)) eqn:T; [intros H; destruct (nan_not_fin H)|].
      intros H. destruct (mul_round a b H) as (Fa & Fb & E). repeat (split; [auto|]); [|exact E]. right.
      pose proof (large_enough _ H T) as L. rewrite E in L.
      destruct (Rle_lt_dec (bpow radix2 (-901)) (Rabs (val a * val b))) as [|C]; [assumption|exfalso].
      apply rnd_lt in C. assert (bpow radix2 (-901) < bpow radix2 (-900)) by (apply bpow_lt; lia). lra.
Qed.
Lemma clean_normal z z' p : clean z -> clean z' -> z' = z * bpow radix2 p ->
  z = 0 \/ bpow radix2 (-1022) <= Rabs z /\ bpow radix2 (-1022) <= Rabs (z * bpow radix2 p).
Proof.
  intros [-> | H] H' E; [left; reflexivity|]. assert (L : bpow radix2 (-1022) <= bpow radix2 (-901)) by (apply bpow_le; lia). right. split; [lra|].
  rewrite <- E. destruct H' as [H'|H']; [|lra]. exfalso. rewrite E in H'. apply Rmult_integral in H' as [H'|H'].
  - exact (big_nz _ _ H H').
  - pose proof (bpow_gt_0 radix2 p). lra.
Qed.
Lemma scaled_mul p q a b a' b' : scaled p a a' -> scaled q b b' -> fin (tmul a b) -> fin (tmul a' b') -> scaled (p + q) (tmul a b) (tmul a' b').
Proof.
  rewrite !scaled_b. intros (Fa & Fa' & Ea) (Fb & Fb' & Eb) H H'. split; [exact H|]. split; [exact H'|].
  destruct (tmul_clean _ _ H) as (-> & _ & _ & C & ->). destruct (tmul_clean _ _ H') as (-> & _ & _ & C' & ->).
  assert (E : val a' * val b' = val a * val b * bpow radix2 (p + q)) by (rewrite Ea, Eb, bpow_plus; ring).
  rewrite E. apply rnd_scale. eapply clean_normal; eauto.
Qed.
Lemma div_nonzero a b : fin (PrimFloat.div a b) -> fin b -> val b <> 0.
Proof.
  intros H Fb. apply nonzero_val; [exact Fb|]. destruct (is_zero b) eqn:Z; [exfalso|reflexivity].
  rewrite fin_B, Flocq.IEEE754.PrimFloat.div_equiv in H. unfold is_zero in Z. rewrite <- Flocq.IEEE754.PrimFloat.B2SF_Prim2B in Z.
  destruct (bin b) as [s|s| |s m e Hm]; cbn in Z; try discriminate. destruct (bin a) as [s'|s'| |s' m' e' Hm']; cbn in H; discriminate.
Qed.
Lemma div_zero_num a b : fin (PrimFloat.div a b) -> is_zero a = true -> val (PrimFloat.div a b) = 0.
Proof.
  intros H Z. rewrite fin_B in H. rewrite val_B. rewrite Flocq.IEEE754.PrimFloat.div_equiv in *. unfold is_zero in Z.
  rewrite <- Flocq.IEEE754.PrimFloat.B2SF_Prim2B in Z.
  destruct (bin a) as [s|s| |s m e Hm]; cbn in Z; try discriminate. destruct (bin b) as [s'|s'| |s' m' e' Hm']; cbn in *; (discriminate || reflexivity).
Qed.
Lemma div_num_fin a b : fin (PrimFloat.div a b) -> is_zero a = false -> fin a -> too_small (PrimFloat.div a b) = false -> fin b.
Proof.
  intros H Z Fa T. unfold too_small in T. rewrite fin_B in *. rewrite <- Flocq.IEEE754.PrimFloat.B2SF_Prim2B in T.
  rewrite Flocq.IEEE754.PrimFloat.div_equiv in *. unfold is_zero in Z. rewrite <- Flocq.IEEE754.PrimFloat.B2SF_Prim2B in Z.
  destruct (bin a) as [s|s| |s m e Hm]; cbn in Z, Fa; try discriminate. destruct (bin b) as [s'|s'| |s' m' e' Hm']; cbn in *; (discriminate || reflexivity).
Qed.
Lemma is_zero_iff a : fin a -> (is_zero a = true <-> val a = 0).
Proof.
  intros F. split; [apply zero_val|]. intros H. destruct (is_zero a) eqn:Z; [reflexivity|]. destruct (nonzero_val a F Z H).
Qed.
Lemma scaled_zero p a a' : scaled p a a' -> (is_zero a = true <-> is_zero a' = true).
Proof.
  rewrite scaled_b. intros (F & F' & E). rewrite !is_zero_iff by assumption. rewrite E. split; intros H.
  - rewrite H. ring.
  - apply Rmult_integral in H as [H|H]; [exact H|]. pose proof (bpow_gt_0 radix2 p). lra.
Qed.
Lemma scaled_div p q a b a' b' : scaled p a a' -> (fin b -> fin b' -> scaled q b b') -> fin (tdiv a b) -> fin (tdiv a' b') ->
  scaled (p - q) (tdiv a b) (tdiv a' b').
Proof.
  intros Sa Sb. pose proof (scaled_zero _ _ _ Sa) as SZ. pose proof Sa as (Fa & Fa' & _). unfold tdiv.
  destruct (is_zero a) eqn:Za.
  - rewrite (proj1 SZ eq_refl). cbn [negb andb]. intros H H'. rewrite scaled_b. split; [exact H|]. split; [exact H'|].
    rewrite (div_zero_num _ _ H Za), (div_zero_num _ _ H' (proj1 SZ eq_refl)). ring.
  - destruct (is_zero a') eqn:Za'; [destruct SZ as (_ & SZ); discriminate (SZ eq_refl)|]. cbn [negb andb].
    destruct (too_small (PrimFloat.div a b)) eqn:T; [intros H; destruct (nan_not_fin H)|].
    destruct (too_small (PrimFloat.div a' b')) eqn:T'; [intros _ H; destruct (nan_not_fin H)|].
    intros H H'. pose proof (div_num_fin _ _ H Za Fa T) as Fb. pose proof (div_num_fin _ _ H' Za' Fa' T') as Fb'.
    specialize (Sb Fb Fb'). rewrite scaled_b in *. destruct Sa as (_ & _ & Ea). destruct Sb as (_ & _ & Eb).
    pose proof (div_nonzero _ _ H Fb) as Nb. pose proof (div_nonzero _ _ H' Fb') as Nb'.
    destruct (div_round _ _ H Fb Nb) as (_ & R1). destruct (div_round _ _ H' Fb' Nb') as (_ & R2).
    split; [exact H|]. split; [exact H'|].
    assert (C : clean (val a / val b)).
    { right. pose proof (large_enough _ H T) as L. rewrite R1 in L. destruct (Rle_lt_dec (bpow radix2 (-901)) (Rabs (val a / val b))) as [|C]; [assumption|exfalso].
      apply rnd_lt in C. assert (bpow radix2 (-901) < bpow radix2 (-900)) by (apply bpow_lt; lia). lra. }
    assert (C' : clean (val a' / val b')).
    { right. pose proof (large_enough _ H' T') as L. rewrite R2 in L. destruct (Rle_lt_dec (bpow radix2 (-901)) (Rabs (val a' / val b'))) as [|C']; [assumption|exfalso].
      apply rnd_lt in C'. assert (bpow radix2 (-901) < bpow radix2 (-900)) by (apply bpow_lt; lia). lra. }
    assert (E : val a' / val b' = val a / val b * bpow radix2 (p - q)).
    { rewrite Ea, Eb. unfold Zminus. rewrite bpow_plus, bpow_opp. pose proof (bpow_gt_0 radix2 q). field. split; [lra|exact Nb]. }
    rewrite R1, R2, E. apply rnd_scale. eapply clean_normal; eauto.
Qed.
Lemma tdiv_num a b : fin (tdiv a b) -> fin (PrimFloat.div a b).
Proof. unfold tdiv. destruct (_ && _); [intros H; destruct (nan_not_fin H)|auto]. Qed.

Lemma sign_of_val a : fin a -> (0 < val a -> sign_of a = 1%Z) /\ (val a < 0 -> sign_of a = (-1)%Z) /\ (val a = 0 -> sign_of a = 0%Z).
Proof.
  unfold fin, sign_of, val. destruct (Prim2SF a) as [s|s| |s m e]; intros F; try contradiction; [split; [lra|split; [lra|reflexivity]]|].
  assert (P : 0 < IZR (Zpos m) * powerRZ 2 e) by (apply Rmult_lt_0_compat; [apply (IZR_lt 0); reflexivity|apply powerRZ_lt; lra]).
  set (z := IZR (Zpos m) * powerRZ 2 e) in *.
  assert (E : (if s then -1 else 1) * IZR (Zpos m) * powerRZ 2 e = (if s then -1 else 1) * z) by (unfold z; ring).
  rewrite E. destruct s; split; try lra; split; try lra; reflexivity.
Qed.
Lemma fin_nan a : fin a -> not_nan a.
Proof. intros F E. unfold fin in F. rewrite E in F. exact F. Qed.
Lemma scaled_sgn p a a' : scaled p a a' -> scaled 0 (fsgn a) (fsgn a').
Proof.
  rewrite !scaled_b. intros (F & F' & E). destruct (fsgn_val a (fin_nan a F)) as (G & V). destruct (fsgn_val a' (fin_nan a' F')) as (G' & V').
  split; [exact G|]. split; [exact G'|]. rewrite V, V'. change (bpow radix2 0) with 1. rewrite Rmult_1_r. f_equal.
  destruct (sign_of_val a F) as (P1 & P2 & P3). destruct (sign_of_val a' F') as (Q1 & Q2 & Q3). pose proof (bpow_gt_0 radix2 p) as B.
  destruct (Rtotal_order (val a) 0) as [H|[H|H]].
  - rewrite P2, Q2; auto. rewrite E. nra.
  - rewrite P3, Q3; auto. rewrite E, H. ring.
  - rewrite P1, Q1; auto. rewrite E. nra.
Qed.
Lemma scaled_same a a' : scaled 0 a a' -> is_zero a = false -> a = a'.
Proof.
  intros Sa Z. pose proof (scaled_zero _ _ _ Sa) as SZ. destruct (proj1 (scaled_b _ _ _) Sa) as (F & F' & E).
  change (bpow radix2 0) with 1 in E. rewrite Rmult_1_r in E. pose proof (nonzero_val a F Z) as N.
  apply Flocq.IEEE754.PrimFloat.Prim2B_inj. rewrite fin_B in F, F'. rewrite val_B in *. symmetry in E. rewrite val_B in E.
  assert (St : forall b : binary_float FloatOps.prec FloatOps.emax, is_finite b = true -> B2R b <> 0 -> is_finite_strict b = true).
  { intros [s|s| |s m e Hm]; cbn; intros; auto; try discriminate; contradiction. }
  apply B2R_inj; [apply St; [exact F|exact N]|apply St; [exact F'|rewrite <- E; exact N]|exact E].
Qed.

(** ** Inner products *)
Lemma fma_round a b r s : fused a b r s -> fin s -> fin a /\ fin b /\ fin r /\ val s = rnd (val a * val b + val r).
Proof.
  intros E H. unfold fused in E. rewrite !fin_B in *. rewrite E in H.
  assert (Hp : is_finite (bin a) = true /\ is_finite (bin b) = true /\ is_finite (bin r) = true).
  { revert H. generalize (bin a) (bin b) (bin r). clear.
    intros a b r. destruct a as [s|s| |s m e H], b as [s'|s'| |s' m' e' H'], r as [t|t| |t mt et Ht]; cbn; intros E;
      try (split; [reflexivity|split; reflexivity] || discriminate);
      try (destruct (Bool.eqb (xorb s s') t); discriminate). }
  destruct Hp as (Ha & Hb & Hr). split; [exact Ha|]. split; [exact Hb|]. split; [exact Hr|].
  pose proof (Bfma_correct FloatOps.prec FloatOps.emax Flocq.IEEE754.PrimFloat.Hprec Flocq.IEEE754.PrimFloat.Hmax mode_NE _ _ _ Ha Hb Hr) as C.
  cbv zeta in C. destruct (Rlt_bool _ _).
  - destruct C as (C & _). rewrite <- E in C. rewrite !val_B, C. reflexivity.
  - apply overflow_not_fin in C. congruence.
Qed.
Definition grid (z : R) : Prop := exists m : Z, z = IZR m * bpow radix2 (-1010).
Lemma grid_0 : grid 0.
Proof. exists 0%Z. ring. Qed.
Lemma grid_plus a b : grid a -> grid b -> grid (a + b).
Proof. intros (m & ->) (k & ->). exists (m + k)%Z. rewrite plus_IZR. ring. Qed.
Lemma grid_F2R m e : (-1010 <= e)%Z -> grid (IZR m * bpow radix2 e).
Proof.
  intros He. exists (m * 2 ^ (e + 1010))%Z. rewrite mult_IZR. change (IZR (2 ^ (e + 1010))) with (IZR (radix2 ^ (e + 1010))).
  rewrite IZR_Zpower by lia. rewrite Rmult_assoc, <- bpow_plus. f_equal. f_equal. lia.
Qed.
Lemma grid_normal z p : grid z -> grid (z * bpow radix2 p) -> z = 0 \/ bpow radix2 (-1022) <= Rabs z /\ bpow radix2 (-1022) <= Rabs (z * bpow radix2 p).
Proof.
  assert (G : forall y, grid y -> y = 0 \/ bpow radix2 (-1022) <= Rabs y).
  { intros y (m & ->). destruct (Z.eq_dec m 0) as [->|Hm]; [left; ring|right]. rewrite Rabs_mult, (Rabs_pos_eq (bpow radix2 (-1010))) by apply bpow_ge_0.
    apply Rle_trans with (1 * bpow radix2 (-1010)); [rewrite Rmult_1_l; apply bpow_le; lia|]. apply Rmult_le_compat_r; [apply bpow_ge_0|].
    rewrite <- abs_IZR. apply (IZR_le 1). lia. }
  intros H H'. destruct (G _ H) as [->|H1]; [left; reflexivity|right]. split; [exact H1|]. destruct (G _ H') as [E|H2]; [|exact H2]. exfalso.
  apply Rmult_integral in E as [E|E]; [exact (big_nz _ _ H1 E)|]. pose proof (bpow_gt_0 radix2 p). lra.
Qed.
Lemma grid_rnd z : grid z -> grid (rnd z).
Proof.
  intros (m & E). destruct (Z_le_gt_dec (-1010) (cexp radix2 fexp64 z)) as [H|H].
  - unfold round, F2R. cbn [Fnum Fexp]. apply grid_F2R. exact H.
  - rewrite rnd_format; [exists m; exact E|]. destruct (Z.eq_dec m 0) as [->|Hm]; [rewrite E, Rmult_0_l; apply generic_format_0|].
    change fexp64 with (FLT_exp (-1074) 53). apply generic_format_FLT. exists (Float radix2 m (-1010)); [exact E| |cbn; lia]. cbn [Fnum].
    assert (Hz : z <> 0). { rewrite E. apply Rmult_integral_contrapositive_currified; [apply not_0_IZR; exact Hm|]. pose proof (bpow_gt_0 radix2 (-1010)). lra. }
    assert (M : (mag radix2 z <= -957)%Z). { unfold cexp, SpecFloat.fexp, SpecFloat.emin, FloatOps.prec, FloatOps.emax in H. lia. }
    apply lt_IZR. rewrite abs_IZR. change (radix2 ^ 53)%Z with (radix2 ^ 53)%Z. rewrite IZR_Zpower by lia.
    apply Rmult_lt_reg_r with (bpow radix2 (-1010)); [apply bpow_gt_0|]. rewrite <- bpow_plus.
    replace (Rabs (IZR m) * bpow radix2 (-1010)) with (Rabs z).
    + apply Rlt_le_trans with (bpow radix2 (mag radix2 z)); [apply bpow_mag_gt|apply bpow_le; lia].
    + rewrite E, Rabs_mult, (Rabs_pos_eq (bpow radix2 (-1010))) by apply bpow_ge_0. reflexivity.
Qed.
Lemma clean_grid a b : clean (val a * val b) -> grid (val a * val b).
Proof.
  intros [->|H]; [apply grid_0|]. pose proof (big_nz _ _ H) as N.
  assert (Na : val a <> 0) by (intros E; rewrite E in N; lra). assert (Nb : val b <> 0) by (intros E; rewrite E in N; lra).
  pose proof (fmt a) as Ga. pose proof (fmt b) as Gb. unfold generic_format, F2R in Ga, Gb. cbn [Fnum Fexp] in Ga, Gb.
  set (ma := Ztrunc (scaled_mantissa radix2 fexp64 (val a))) in *. set (mb := Ztrunc (scaled_mantissa radix2 fexp64 (val b))) in *.
  assert (M : (-901 + 1 <= mag radix2 (val a * val b))%Z) by (apply mag_ge_bpow; replace (-901 + 1 - 1)%Z with (-901)%Z by lia; exact H).
  pose proof (mag_mult radix2 (val a) (val b) Na Nb) as (_ & M2).
  assert (E : val a * val b = IZR (ma * mb) * bpow radix2 (cexp radix2 fexp64 (val a) + cexp radix2 fexp64 (val b))).
  { rewrite Ga at 1. rewrite Gb at 1. rewrite mult_IZR, bpow_plus. ring. }
  rewrite E. apply grid_F2R. unfold cexp, SpecFloat.fexp, SpecFloat.emin, FloatOps.prec, FloatOps.emax. lia.
Qed.
Lemma follows_scaled (u v u' v' : list float) p q :
  (forall i, scaled p (nth i u PrimFloat.zero) (nth i u' PrimFloat.zero) /\ scaled q (nth i v PrimFloat.zero) (nth i v' PrimFloat.zero) /\
     clean (val (nth i u PrimFloat.zero) * val (nth i v PrimFloat.zero)) /\ clean (val (nth i u' PrimFloat.zero) * val (nth i v' PrimFloat.zero))) ->
  forall pl r, follows u v pl r -> forall r', follows u' v' pl r' -> fin r -> fin r' -> scaled (p + q) r r' /\ grid (val r) /\ grid (val r').
Proof.
  intros HC. induction 1 as [|i|p1 p2 a b H1 IH1 H2 IH2|i p1 a r H1 IH1 HF]; intros r' Hr Fr Fr'; inversion Hr; subst; clear Hr.
  - split; [|split; rewrite (proj2 zero_fin); apply grid_0]. rewrite scaled_b. split; [exact I|]. split; [exact I|]. rewrite (proj2 zero_fin). ring.
  - destruct (HC i) as (Su & Sv & C & C'). destruct (mul_round _ _ Fr) as (_ & _ & E). destruct (mul_round _ _ Fr') as (_ & _ & E').
    pose proof (grid_rnd _ (clean_grid _ _ C)) as G. pose proof (grid_rnd _ (clean_grid _ _ C')) as G'. rewrite <- E in G. rewrite <- E' in G'.
    split; [|split; assumption]. rewrite scaled_b in *. split; [exact Fr|]. split; [exact Fr'|]. destruct Su as (_ & _ & Eu). destruct Sv as (_ & _ & Ev).
    rewrite E, E'. assert (EE : val (nth i u' PrimFloat.zero) * val (nth i v' PrimFloat.zero) = val (nth i u PrimFloat.zero) * val (nth i v PrimFloat.zero) * bpow radix2 (p + q)) by (rewrite Eu, Ev, bpow_plus; ring).
    rewrite EE. apply rnd_scale. eapply clean_normal; eauto.
  - destruct (add_fin _ _ Fr) as (Fa & Fb). destruct (add_fin _ _ Fr') as (Fa' & Fb').
    match goal with A : follows u' v' p1 ?x, B : follows u' v' p2 ?y |- _ => destruct (IH1 x A Fa Fa') as (S1 & G1 & G1'); destruct (IH2 y B Fb Fb') as (S2 & G2 & G2') end.
    split; [apply scaled_add; auto|]. rewrite !add_round by assumption. split; apply grid_rnd, grid_plus; assumption.
  - destruct (HC i) as (Su & Sv & C & C'). destruct (fma_round _ _ _ _ HF Fr) as (_ & _ & Fa & E).
    match goal with B : fused _ _ ?x r', A : follows u' v' p1 ?x |- _ => destruct (fma_round _ _ _ _ B Fr') as (_ & _ & Fa' & E'); destruct (IH1 x A Fa Fa') as (S1 & G1 & G1') end.
    pose proof (grid_plus _ _ (clean_grid _ _ C) G1) as G. pose proof (grid_plus _ _ (clean_grid _ _ C') G1') as G'.
    rewrite scaled_b in *. destruct Su as (_ & _ & Eu). destruct Sv as (_ & _ & Ev). destruct S1 as (_ & _ & Er).
    split; [|split; [rewrite E; apply grid_rnd, G|rewrite E'; apply grid_rnd, G']]. split; [exact Fr|]. split; [exact Fr'|]. rewrite E, E'.
    match goal with |- rnd ?z = rnd ?w * _ => assert (EE : z = w * bpow radix2 (p + q)) by (rewrite Eu, Ev, Er, bpow_plus; ring); rewrite EE in *; apply rnd_scale, grid_normal; assumption end.
Qed.

(** ** Runs *)
Lemma F2_map (f g : float -> float) (P Q : float -> float -> Prop) u u' : (forall a a', P a a' -> fin (f a) -> fin (g a') -> Q (f a) (g a')) ->
  Forall2 P u u' -> Forall fin (map f u) -> Forall fin (map g u') -> Forall2 Q (map f u) (map g u').
Proof.
  intros H. induction 1 as [|a a' u u' Ha Hu IH]; intros F F'; [constructor|]. inversion F; subst. inversion F'; subst. constructor; auto.
Qed.
Lemma F2_len {A B} (P : A -> B -> Prop) u v : Forall2 P u v -> length u = length v.
Proof. induction 1; cbn; congruence. Qed.
Lemma F2_nth {A B} (P : A -> B -> Prop) u v a b i : Forall2 P u v -> (i < length u)%nat -> P (nth i u a) (nth i v b).
Proof.
  intros H. revert i. induction H as [|x y u v Hx Hu IH]; intros i Hi; cbn in Hi; [lia|]. destruct i as [|i]; cbn; [exact Hx|apply IH; lia].
Qed.
Lemma F2_of_nth {A B} (P : A -> B -> Prop) a b : forall u v, length u = length v -> (forall i, (i < length u)%nat -> P (nth i u a) (nth i v b)) -> Forall2 P u v.
Proof.
  induction u as [|x u IH]; intros [|y v] L H; try discriminate; constructor.
  - apply (H 0%nat). cbn. lia.
  - apply IH; [cbn in L; lia|]. intros i Hi. apply (H (Datatypes.S i)). cbn. lia.
Qed.
Lemma add_rows p u u' v v' : Forall2 (scaled p) u u' -> Forall2 (scaled p) v v' -> length u = length v ->
  Forall fin (map2 PrimFloat.add u v) -> Forall fin (map2 PrimFloat.add u' v') -> Forall2 (scaled p) (map2 PrimFloat.add u v) (map2 PrimFloat.add u' v').
Proof.
  intros H. revert v v'. induction H as [|a a' u u' Ha Hu IH]; intros v v' Hv L F F'; [constructor|].
  inversion Hv as [|b b' w w' Hb Hw]; subst; cbn in *; [constructor|]. inversion F; subst. inversion F'; subst. constructor.
  - apply scaled_add; auto.
  - apply IH; auto.
Qed.
Lemma add_rows_fin u v : length u = length v -> Forall fin (map2 PrimFloat.add u v) -> Forall fin v.
Proof.
  revert v. induction u as [|a u IH]; intros [|b v] L F; try discriminate; constructor; inversion F; subst.
  - eapply add_fin; eauto.
  - apply IH; auto.
Qed.

Section C121.
  Variable solve : list (list float) -> list (list float) -> option (list (list float)).
  Variables (tanh exp : float -> float) (power : float -> float -> float) (sum : list float -> float) (dot : list float -> list float -> float).
  (** inner products are evaluated by one plan for each length; tanh of a zero is a zero, and tanh of nan is no number *)
  Hypothesis dot_plan : forall n, exists pl, forall u v, length u = n -> length v = n -> follows u v pl (dot u v).
  Hypothesis tanh_zero : forall a, is_zero a = true -> is_zero (tanh a) = true.
  Hypothesis tanh_nan : ~ fin (tanh PrimFloat.nan).
  #[local] Notation ND := (FNumD solve tanh exp power sum dot).
  #[local] Notation NT := (FNumT solve tanh exp power sum dot).
  #[local] Hint Extern 0 (Num float) => exact ND : typeclass_instances.

  (** the run is finite, and no product or quotient in it underflows: the arithmetic that refuses to underflow gives the same *)
  Definition no_underflow (d : list float) (x : list (list float)) (o : obj float) : Prop :=
    exists o' y e w, @run _ ND d x o = (o', Ok (y, e, w)) /\ @run _ NT d x o = (o', Ok (y, e, w)) /\
      Forall fin y /\ Forall fin e /\ Forall (Forall fin) w /\ Forall fin (o_w o').

  Lemma scaled_tdot p q u u' v v' : length u = length v -> Forall2 (scaled p) u u' -> Forall2 (scaled q) v v' ->
    fin (tdot dot u v) -> fin (tdot dot u' v') -> scaled (p + q) (tdot dot u v) (tdot dot u' v').
  Proof.
    intros L Hu Hv F F'. pose proof (F2_len _ _ _ Hu) as Lu. pose proof (F2_len _ _ _ Hv) as Lv. unfold tdot in *.
    destruct (forallb (fun z => finb (tmul (fst z) (snd z))) (combine u v)) eqn:C; [|destruct (nan_not_fin F)].
    destruct (forallb (fun z => finb (tmul (fst z) (snd z))) (combine u' v')) eqn:C'; [|destruct (nan_not_fin F')].
    destruct (dot_plan (length u)) as (pl & HP).
    refine (proj1 (follows_scaled u v u' v' p q _ pl _ (HP u v eq_refl (eq_sym L)) _ (HP u' v' _ _) F F')); [|congruence|congruence].
    intros i. destruct (Nat.lt_ge_cases i (length u)) as [Hi|Hi].
    - split; [apply F2_nth; auto|]. split; [apply F2_nth; [exact Hv|lia]|].
      rewrite forallb_forall in C, C'. split.
      + apply (tmul_clean _ _ (finb_ok _ (C (nth i u PrimFloat.zero, nth i v PrimFloat.zero) ltac:(rewrite <- combine_nth by exact L; apply nth_In; rewrite combine_length; lia)))).
      + apply (tmul_clean _ _ (finb_ok _ (C' (nth i u' PrimFloat.zero, nth i v' PrimFloat.zero) ltac:(rewrite <- combine_nth by congruence; apply nth_In; rewrite combine_length; lia)))).
    - rewrite !nth_overflow by lia. assert (Z : forall k, scaled k PrimFloat.zero PrimFloat.zero).
      { intros k. rewrite scaled_b. split; [exact I|]. split; [exact I|]. rewrite (proj2 zero_fin). ring. }
      split; [apply Z|]. split; [apply Z|]. rewrite (proj2 zero_fin), Rmult_0_l. split; left; reflexivity.
  Qed.
  Lemma scaled_tanh a a' : scaled 0 a a' -> fin (tanh a) -> fin (tanh a') -> scaled 0 (tanh a) (tanh a').
  Proof.
    intros H F F'. rewrite scaled_b. split; [exact F|]. split; [exact F'|]. destruct (is_zero a) eqn:Z.
    - rewrite (zero_val _ (tanh_zero a Z)), (zero_val _ (tanh_zero a' (proj1 (scaled_zero _ _ _ H) Z))). ring.
    - rewrite (scaled_same a a' H Z). change (bpow radix2 0) with 1. ring.
  Qed.
  Lemma tmul_parts a b : fin (tmul a b) -> fin a /\ fin b.
  Proof. intros H. destruct (tmul_clean a b H) as (_ & Fa & Fb & _). auto. Qed.

  Lemma tmul_or_nan a b : tmul a b <> PrimFloat.nan -> fin (tmul a b).
  Proof.
    unfold tmul. destruct (finb (PrimFloat.mul a b)) eqn:F; cbn [andb]; [|intros H; destruct (H eq_refl)].
    destruct (negb _); [intros _; apply finb_ok, F|intros H; destruct (H eq_refl)].
  Qed.

  (** the change of the weights in the arithmetic that refuses to underflow *)
  Definition change_of (c : ext float) (mu er : float) (u : list float) : list float :=
    match c with
    | XLMS => map (fun a => tmul (tmul mu a) er) u
    | XLMF => map (fun a => tmul (tmul mu a) (tpown er 3)) u
    | XSSLMS => map (fun a => tmul (tmul mu (fsgn a)) (fsgn er)) u
    | XNLMS eps => map (fun a => tmul (tmul (tdiv mu (PrimFloat.add eps (tdot dot u u))) a) er) u
    | XNLMF eps => map (fun a => tmul (tmul (tdiv mu (PrimFloat.add eps (tdot dot u u))) a) (tpown er 3)) u
    | XNSSLMS eps => map (fun a => tmul (tmul (tdiv mu (PrimFloat.add eps (tdot dot u u))) (fsgn a)) (fsgn er)) u
    | XLlncosh l => map (fun a => tmul (tmul mu (tanh (tmul l er))) a) u
    | _ => u
    end.
  Lemma change_length c mu er u : length (change_of c mu er u) = length u.
  Proof. destruct c; try reflexivity; apply map_length. Qed.
  Lemma scaled_cube t er er' : scaled t er er' -> fin (tpown er 3) -> fin (tpown er' 3) -> scaled (3 * t) (tpown er 3) (tpown er' 3).
  Proof.
    intros S F F'. cbn [tpown] in *. replace (3 * t)%Z with (t + t + t)%Z by lia.
    destruct (tmul_parts _ _ F) as (G & _). destruct (tmul_parts _ _ F') as (G' & _). apply scaled_mul; auto. apply scaled_mul; auto.
  Qed.
  Lemma scaled_rate m s mu mu' eps eps' u u' : scaled m mu mu' -> scaled (2 * s) eps eps' -> Forall2 (scaled s) u u' ->
    fin (tdiv mu (PrimFloat.add eps (tdot dot u u))) -> fin (tdiv mu' (PrimFloat.add eps' (tdot dot u' u'))) ->
    scaled (m - 2 * s) (tdiv mu (PrimFloat.add eps (tdot dot u u))) (tdiv mu' (PrimFloat.add eps' (tdot dot u' u'))).
  Proof.
    intros Sm Se Su F F'. apply scaled_div; auto. intros G G'. destruct (add_fin _ _ G) as (_ & H). destruct (add_fin _ _ G') as (_ & H').
    apply scaled_add; auto. replace (2 * s)%Z with (s + s)%Z by lia. apply scaled_tdot; auto.
  Qed.
  Lemma change_scaled s t (o o2 : obj float) er er' u u' : converted s t o o2 -> scaled t er er' -> Forall2 (scaled s) u u' ->
    Forall fin (change_of (o_ext o) (o_mu o) er u) -> Forall fin (change_of (o_ext o2) (o_mu o2) er' u') ->
    Forall2 (scaled (t - s)) (change_of (o_ext o) (o_mu o) er u) (change_of (o_ext o2) (o_mu o2) er' u').
  Proof.
    unfold converted. intros HC Se Su.
    destruct (o_ext o) as [| | | |eps|eps|eps| |l| | | | | | |], (o_ext o2) as [| | | |eps2|eps2|eps2| |l2| | | | | | |]; try contradiction;
      cbn [change_of]; intros F F'; revert F F'; apply F2_map with (P := scaled s); auto; intros a a' Sa F F'.
    - replace (t - s)%Z with (-2 * s + s + t)%Z by lia. destruct (tmul_parts _ _ F) as (G & _). destruct (tmul_parts _ _ F') as (G' & _).
      repeat apply scaled_mul; auto.
    - replace (t - s)%Z with (-2 * s - 2 * t + s + 3 * t)%Z by lia. destruct (tmul_parts _ _ F) as (G & K). destruct (tmul_parts _ _ F') as (G' & K').
      apply scaled_mul; auto; [apply scaled_mul; auto|apply scaled_cube; auto].
    - replace (t - s)%Z with (t - s + 0 + 0)%Z by lia. destruct (tmul_parts _ _ F) as (G & _). destruct (tmul_parts _ _ F') as (G' & _).
      apply scaled_mul; auto; [apply scaled_mul; auto|]; eapply scaled_sgn; eauto.
    - destruct HC as (Sm & Sp). replace (t - s)%Z with (0 - 2 * s + s + t)%Z by lia. destruct (tmul_parts _ _ F) as (G & _). destruct (tmul_parts _ _ F') as (G' & _).
      destruct (tmul_parts _ _ G) as (K & _). destruct (tmul_parts _ _ G') as (K' & _). apply scaled_mul; auto. apply scaled_mul; auto. apply scaled_rate; auto.
    - destruct HC as (Sm & Sp). replace (t - s)%Z with (-2 * t - 2 * s + s + 3 * t)%Z by lia. destruct (tmul_parts _ _ F) as (G & H3). destruct (tmul_parts _ _ F') as (G' & H3').
      destruct (tmul_parts _ _ G) as (K & _). destruct (tmul_parts _ _ G') as (K' & _). apply scaled_mul; auto; [|apply scaled_cube; auto]. apply scaled_mul; auto. apply scaled_rate; auto.
    - destruct HC as (Sm & Sp). replace (t - s)%Z with (s + t - 2 * s + 0 + 0)%Z by lia. destruct (tmul_parts _ _ F) as (G & _). destruct (tmul_parts _ _ F') as (G' & _).
      destruct (tmul_parts _ _ G) as (K & _). destruct (tmul_parts _ _ G') as (K' & _). apply scaled_mul; auto; [|eapply scaled_sgn; eauto]. apply scaled_mul; auto; [|eapply scaled_sgn; eauto]. apply scaled_rate; auto.
    - destruct HC as (Sm & Sl). replace (t - s)%Z with (t - 2 * s + 0 + s)%Z by lia. destruct (tmul_parts _ _ F) as (G & _). destruct (tmul_parts _ _ F') as (G' & _).
      destruct (tmul_parts _ _ G) as (_ & K). destruct (tmul_parts _ _ G') as (_ & K'). apply scaled_mul; auto. apply scaled_mul; auto. apply scaled_tanh; auto.
      replace 0%Z with (- t + t)%Z by lia. apply scaled_mul; auto.
      + apply tmul_or_nan. intros E. rewrite E in K. exact (tanh_nan K).
      + apply tmul_or_nan. intros E. rewrite E in K'. exact (tanh_nan K').
  Qed.

  Lemma rule_T (o o1 : obj float) er u s t o2 : converted s t o o2 \/ converted s t o2 o -> o_ext o1 = o_ext o -> o_mu o1 = o_mu o ->
    @learning_rule _ NT er u o1 = (o1, Ok (change_of (o_ext o) (o_mu o) er u)).
  Proof.
    intros HC E M. unfold learning_rule, bind, get. rewrite E, M. unfold converted in HC.
    destruct (o_ext o), (o_ext o2); cbn in HC; try tauto; reflexivity.
  Qed.
  Lemma class_of (o o2 : obj float) s t : converted s t o o2 \/ converted s t o2 o -> is_AP o = false /\ is_OCNLMS o = false.
  Proof. unfold converted, is_AP, is_OCNLMS. intros HC. destruct (o_ext o), (o_ext o2); cbn in HC; try tauto; split; reflexivity. Qed.

  Lemma lengths_F n (o o' : obj float) d x y e w s t o2 : converted s t o o2 \/ converted s t o2 o -> reachable n o -> rows_of n x -> run d x o = (o', Ok (y, e, w)) ->
    length d = length x /\ length y = length x /\ length e = length x /\ length w = length x.
  Proof.
    intros HC Hr Hx E.
    assert (Hl : length d = length x).
    { destruct (Nat.eq_dec (length d) (length x)) as [|Hc]; auto. rewrite run_bad_length in E by assumption. discriminate. }
    assert (Hne : x <> []). { intros ->. unfold run in E. destruct d; cbn in E; discriminate. }
    destruct (run_existsF solve tanh exp power sum dot n o d x Hr Hx Hl Hne) as (o1 & y1 & e1 & w1 & E1 & L1 & L2 & L3).
    { intros ex. unfold soft_exn. unfold converted in HC. destruct (o_ext o), (o_ext o2); cbn in HC; tauto. }
    rewrite E1 in E. injection E as _ <- <- <-. auto.
  Qed.

  Theorem C121_units : forall n (o o2 : obj float) d x d2 x2 s t, reachable n o -> reachable n o2 -> rows_of n x ->
    Forall2 (Forall2 (scaled s)) x x2 -> Forall2 (scaled t) d d2 -> Forall2 (scaled (t - s)) (o_w o) (o_w o2) -> converted s t o o2 ->
    no_underflow d x o -> no_underflow d2 x2 o2 ->
    exists o' y e w o2' y2 e2 w2, run d x o = (o', Ok (y, e, w)) /\ run d2 x2 o2 = (o2', Ok (y2, e2, w2)) /\
      Forall2 (scaled t) y y2 /\ Forall2 (scaled t) e e2 /\ Forall2 (Forall2 (scaled (t - s))) w w2 /\ Forall2 (scaled (t - s)) (o_w o') (o_w o2').
  Proof.
    intros n o o2 d x d2 x2 s t R1 R2 Hx Sx Sd Sw HC (o' & y & e & w & A1 & T1 & Fy & Fe & Fw & Fo) (o2' & y2 & e2 & w2 & A2 & T2 & Fy2 & Fe2 & Fw2 & Fo2).
    exists o', y, e, w, o2', y2, e2, w2. split; [exact A1|]. split; [exact A2|].
    assert (Hx2 : rows_of n x2).
    { unfold rows_of in *. rewrite Forall_forall in *. intros r Hr. apply In_nth with (d := []) in Hr as (i & Hi & <-).
      pose proof (F2_len _ _ _ Sx) as L. rewrite <- (F2_len _ _ _ (F2_nth _ _ _ [] [] i Sx ltac:(lia))). apply Hx, nth_In. lia. }
    destruct (class_of o o2 s t (or_introl HC)) as (P1 & O1). destruct (class_of o2 o s t (or_intror HC)) as (P2 & O2).
    pose proof (@reachable_wf _ ND n o R1) as W1. pose proof (@reachable_wf _ ND n o2 R2) as W2.
    destruct (lengths_F n o o' d x y e w s t o2 (or_introl HC) R1 Hx A1) as (Ld & Ly & Le & Lw). destruct (lengths_F n o2 o2' d2 x2 y2 e2 w2 s t o (or_intror HC) R2 Hx2 A2) as (Ld2 & Ly2 & Le2 & Lw2).
    pose proof (F2_len _ _ _ Sx) as Lx.
    destruct (@plain_run _ NT n o o' d x y e w (change_of (o_ext o) (o_mu o)) W1 Hx P1 O1 (fun s0 er u E M => rule_T o s0 er u s t o2 (or_introl HC) E M)
      (fun er u => change_length _ _ er u) T1) as (S0 & SK).
    destruct (@plain_run _ NT n o2 o2' d2 x2 y2 e2 w2 (change_of (o_ext o2) (o_mu o2)) W2 Hx2 P2 O2 (fun s0 er u E M => rule_T o2 s0 er u s t o (or_intror HC) E M)
      (fun er u => change_length _ _ er u) T2) as (S0' & SK').
    set (W := fun k => nth k (w ++ [o_w o']) []) in *. set (W' := fun k => nth k (w2 ++ [o_w o2']) []) in *.
    assert (FW : forall k, (k <= length x)%nat -> Forall fin (W k)).
    { intros k Hk. unfold W. destruct (Nat.eq_dec k (length x)) as [->|Hn].
      - rewrite app_nth2, Lw, Nat.sub_diag by lia. exact Fo.
      - rewrite app_nth1 by lia. rewrite Forall_forall in Fw. apply Fw, nth_In. lia. }
    assert (FW' : forall k, (k <= length x)%nat -> Forall fin (W' k)).
    { intros k Hk. unfold W'. destruct (Nat.eq_dec k (length x)) as [->|Hn].
      - rewrite app_nth2 by lia. replace (length x - length w2)%nat with 0%nat by lia. exact Fo2.
      - rewrite app_nth1 by lia. rewrite Forall_forall in Fw2. apply Fw2, nth_In. lia. }
    assert (Ny : forall k, (k < length x)%nat -> fin (nth k y PrimFloat.zero) /\ fin (nth k y2 PrimFloat.zero) /\ fin (nth k e PrimFloat.zero) /\ fin (nth k e2 PrimFloat.zero)).
    { intros k Hk. rewrite Forall_forall in Fy, Fy2, Fe, Fe2. repeat split; [apply Fy|apply Fy2|apply Fe|apply Fe2]; apply nth_In; lia. }
    assert (One : forall k, (k < length x)%nat -> Forall2 (scaled (t - s)) (W k) (W' k) ->
      scaled t (nth k y PrimFloat.zero) (nth k y2 PrimFloat.zero) /\ scaled t (nth k e PrimFloat.zero) (nth k e2 PrimFloat.zero) /\ Forall2 (scaled (t - s)) (W (Datatypes.S k)) (W' (Datatypes.S k))).
    { intros k Hk IH. destruct (SK k Hk) as (L1 & L2 & L3 & Ey & Ee & EW). destruct (SK' k ltac:(lia)) as (L1' & L2' & L3' & Ey' & Ee' & EW').
      change (@n0 float NT) with PrimFloat.zero in *.
      change (W (Datatypes.S k) = map2 PrimFloat.add (W k) (change_of (o_ext o) (o_mu o) (nth k e PrimFloat.zero) (nth k x []))) in EW.
      change (W' (Datatypes.S k) = map2 PrimFloat.add (W' k) (change_of (o_ext o2) (o_mu o2) (nth k e2 PrimFloat.zero) (nth k x2 []))) in EW'.
      change (nth k y PrimFloat.zero = tdot dot (W k) (nth k x [])) in Ey. change (nth k y2 PrimFloat.zero = tdot dot (W' k) (nth k x2 [])) in Ey'.
      change (nth k e PrimFloat.zero = PrimFloat.sub (nth k d PrimFloat.zero) (nth k y PrimFloat.zero)) in Ee.
      change (nth k e2 PrimFloat.zero = PrimFloat.sub (nth k d2 PrimFloat.zero) (nth k y2 PrimFloat.zero)) in Ee'.
      change (length (W k) = n) in L1. change (length (W' k) = n) in L1'.
      destruct (Ny k Hk) as (F1 & F2 & F3 & F4). pose proof (F2_nth _ _ _ [] [] k Sx Hk) as Sk.
      assert (Sy : scaled t (nth k y PrimFloat.zero) (nth k y2 PrimFloat.zero)).
      { rewrite Ey in F1 |- *. rewrite Ey' in F2 |- *. replace t with (t - s + s)%Z at 1 by lia. apply scaled_tdot; auto. congruence. }
      assert (Se : scaled t (nth k e PrimFloat.zero) (nth k e2 PrimFloat.zero)).
      { rewrite Ee in F3 |- *. rewrite Ee' in F4 |- *. apply scaled_sub; auto. apply F2_nth; [exact Sd|lia]. }
      split; [exact Sy|]. split; [exact Se|]. rewrite EW, EW'.
      pose proof (FW (Datatypes.S k) ltac:(lia)) as G. pose proof (FW' (Datatypes.S k) ltac:(lia)) as G'. rewrite EW in G. rewrite EW' in G'.
      apply add_rows; auto.
      - apply change_scaled; auto; eapply add_rows_fin; try eassumption; rewrite change_length; congruence.
      - rewrite change_length. congruence. }
    assert (All : forall k, (k <= length x)%nat -> Forall2 (scaled (t - s)) (W k) (W' k)).
    { induction k as [|k IH]; intros Hk; [change (W 0%nat = o_w o) in S0; change (W' 0%nat = o_w o2) in S0'; rewrite S0, S0'; exact Sw|]. apply One; [lia|]. apply IH. lia. }
    split; [apply F2_of_nth with (a := PrimFloat.zero) (b := PrimFloat.zero); [congruence|]; intros k Hk; apply One; [lia|apply All; lia]|].
    split; [apply F2_of_nth with (a := PrimFloat.zero) (b := PrimFloat.zero); [congruence|]; intros k Hk; apply One; [lia|apply All; lia]|].
    split.
    - apply F2_of_nth with (a := []) (b := []); [congruence|]. intros k Hk. specialize (All k ltac:(lia)). unfold W, W' in All. rewrite !app_nth1 in All by lia. exact All.
    - specialize (All (length x) ltac:(lia)). unfold W, W' in All. rewrite !app_nth2 in All by lia. replace (length x - length w)%nat with 0%nat in All by lia. replace (length x - length w2)%nat with 0%nat in All by lia. exact All.
  Qed.
End C121.

(** ** Concrete cases *)
(** an exact check of [scaled] on the machine representation *)
Definition scaledb (p : Z) (a b : float) : bool :=
  match Prim2SF a, Prim2SF b with
  | S754_zero _, S754_zero _ => true
  | S754_finite s m e, S754_finite s' m' e' => Bool.eqb s s' && (m =? m')%positive && (e' =? e + p)%Z
  | _, _ => false
  end.
Lemma scaledb_ok p a b : scaledb p a b = true -> scaled p a b.
Proof.
  unfold scaledb, scaled, fin, val. destruct (Prim2SF a) as [s|s| |s m e], (Prim2SF b) as [s'|s'| |s' m' e']; intros H; try discriminate.
  - split; [exact I|]. split; [exact I|]. ring.
  - apply andb_prop in H as (H & H3). apply andb_prop in H as (H1 & H2). apply Bool.eqb_prop in H1. apply Pos.eqb_eq in H2. apply Z.eqb_eq in H3. subst.
    split; [exact I|]. split; [exact I|]. rewrite powerRZ_add by lra. ring.
Qed.
Fixpoint all2 {A B} (f : A -> B -> bool) (u : list A) (v : list B) : bool :=
  match u, v with [], [] => true | a :: u, b :: v => f a b && all2 f u v | _, _ => false end.
Lemma all2_ok {A B} (f : A -> B -> bool) (P : A -> B -> Prop) u v : (forall a b, f a b = true -> P a b) -> all2 f u v = true -> Forall2 P u v.
Proof. intros H. revert v. induction u as [|a u IH]; intros [|b v] E; try discriminate; constructor; cbn in E; apply andb_prop in E as (E1 & E2); auto. Qed.
Definition shift (p : Z) (a : float) : float := FloatOps.Z.ldexp a p.

(** summation from left to right follows one plan for each length *)
Fixpoint left_plan (n : nat) : plan := match n with O => PZero | Datatypes.S k => PAdd (left_plan k) (PMul k) end.
Lemma left_plan_prefix k : forall u u' v v', length u = k -> length v = k -> forall r, follows u v (left_plan k) r -> follows (u ++ u') (v ++ v') (left_plan k) r.
Proof.
  assert (G : forall j u u' v v', (j <= length u)%nat -> (j <= length v)%nat -> forall r, follows u v (left_plan j) r -> follows (u ++ u') (v ++ v') (left_plan j) r).
  { induction j as [|j IH]; intros u u' v v' Lu Lv r H; cbn [left_plan] in *; inversion H; subst; [constructor|].
    constructor; [apply IH; auto; lia|]. match goal with Q : follows _ _ (PMul j) _ |- _ => inversion Q; subst end.
    rewrite <- (app_nth1 u u') by lia. rewrite <- (app_nth1 v v') by lia. constructor. }
  intros u u' v v' Lu Lv. apply G; lia.
Qed.
Lemma plain_dot_plan : forall n, exists pl, forall u v, length u = n -> length v = n -> follows u v pl (plain_dot u v).
Proof.
  intros n. exists (left_plan n). induction n as [|n IH]; intros u v Lu Lv.
  - destruct u; [|discriminate]. destruct v; [|discriminate]. constructor.
  - destruct (exists_last (l := u)) as (u0 & a & ->); [destruct u; discriminate|]. destruct (exists_last (l := v)) as (v0 & b & ->); [destruct v; discriminate|].
    rewrite app_length in *. cbn [length] in *. assert (L1 : length u0 = n) by lia. assert (L2 : length v0 = n) by lia.
    assert (E : plain_dot (u0 ++ [a]) (v0 ++ [b]) = PrimFloat.add (plain_dot u0 v0) (PrimFloat.mul (nth n (u0 ++ [a]) PrimFloat.zero) (nth n (v0 ++ [b]) PrimFloat.zero))).
    { rewrite !app_nth2 by lia. rewrite L1, L2, Nat.sub_diag. cbn [nth]. unfold plain_dot.
      assert (M : map2 PrimFloat.mul (u0 ++ [a]) (v0 ++ [b]) = map2 PrimFloat.mul u0 v0 ++ [PrimFloat.mul a b]).
      { clear -L1 L2. revert v0 n L1 L2. induction u0 as [|x u0 IH]; intros [|y v0] n L1 L2; cbn in *; subst; try discriminate; [reflexivity|]. f_equal. eapply IH; [reflexivity|congruence]. }
      rewrite M, fold_left_app. reflexivity. }
    rewrite E. cbn [left_plan]. constructor; [|constructor]. apply left_plan_prefix; auto.
Qed.

(** clip_num of C117 again: tanh replaced by the sign *)
Definition sf_num : Num float := FNumD no_solve fsgn (fun a => a) (fun a _ => a) plain_sum plain_dot.
Definition sf_d : list float := [PrimFloat.one; tenth; PrimFloat.two].
Definition sf_x : list (list float) := [[PrimFloat.one; tenth]; [tenth; PrimFloat.two]; [PrimFloat.one; PrimFloat.one]].
Definition sf_kw (mu w1 : float) (p l : option float) : kwargs float := mkKw (Some 2%Z) (Some mu) (Some (WVec [w1; w1])) p None None l None None None None false.
Definition sf_filter (mu w1 : float) (c : ext float) : obj float := mkObj [w1; w1] 2 mu None c.
Lemma sf_reachable k mu w1 p l c : @new_filter _ sf_num (fun j => repeat PrimFloat.zero j) k (sf_kw mu w1 p l) = Ok (sf_filter mu w1 c) ->
  @reachable _ sf_num 2 (sf_filter mu w1 c).
Proof.
  intros H. apply (@reach_new _ sf_num 2 (fun j => repeat PrimFloat.zero j) k (sf_kw mu w1 p l)); [intros j; apply repeat_length|split; discriminate|reflexivity|exact H].
Qed.
Definition smooth (d : list float) (x : list (list float)) (o : obj float) : Prop :=
  no_underflow no_solve fsgn (fun a => a) (fun a _ => a) plain_sum plain_dot d x o.
Ltac smooth := unfold smooth, no_underflow;
  match goal with |- context [@run _ ?N ?d ?x ?o] => destruct (@run _ N d x o) as [?o' ?r] eqn:?E end;
  match goal with E : @run _ _ _ _ _ = _ |- _ => vm_compute in E; injection E as ?E1 ?E2; subst end;
  do 4 eexists; split; [reflexivity|]; split; [vm_compute; reflexivity|];
  split; [apply finb_all; vm_compute; reflexivity|]; split; [apply finb_all; vm_compute; reflexivity|];
  split; [repeat (constructor; [apply finb_all; vm_compute; reflexivity|]); constructor|apply finb_all; vm_compute; reflexivity].
(** inputs in a unit 8 times smaller, targets in a unit 32 times larger *)
Example C121_hypotheses :
  (forall n, exists pl, forall u v, length u = n -> length v = n -> follows u v pl (plain_dot u v)) /\
  (forall a, is_zero a = true -> is_zero (fsgn a) = true) /\ ~ fin (fsgn PrimFloat.nan) /\
  let o := sf_filter tenth tenth (XNLMS tenth) in let o2 := sf_filter tenth (shift (-8) tenth) (XNLMS (shift 6 tenth)) in
  let l := sf_filter tenth tenth (XLlncosh tenth) in let l2 := sf_filter (shift (-11) tenth) (shift (-8) tenth) (XLlncosh (shift 5 tenth)) in
  @reachable _ sf_num 2 o /\ @reachable _ sf_num 2 o2 /\ @reachable _ sf_num 2 l /\ @reachable _ sf_num 2 l2 /\ rows_of 2 sf_x /\
  Forall2 (Forall2 (scaled 3)) sf_x (map (map (shift 3)) sf_x) /\ Forall2 (scaled (-5)) sf_d (map (shift (-5)) sf_d) /\
  Forall2 (scaled (-5 - 3)) (o_w o) (o_w o2) /\ converted 3 (-5) o o2 /\ converted 3 (-5) l l2 /\
  smooth sf_d sf_x o /\ smooth (map (shift (-5)) sf_d) (map (map (shift 3)) sf_x) o2 /\
  smooth sf_d sf_x l /\ smooth (map (shift (-5)) sf_d) (map (map (shift 3)) sf_x) l2.
Proof.
  split; [exact plain_dot_plan|]. split.
  { intros a H. unfold is_zero in *. unfold fsgn. rewrite !ltb_spec. destruct (Prim2SF a) as [s|s| |s m e] eqn:E; try discriminate. destruct s; cbn; rewrite E; reflexivity. }
  split; [intros H; exact H|]. cbv zeta.
  split; [apply (sf_reachable KNLMS _ _ (Some tenth) None); vm_compute; reflexivity|].
  split; [apply (sf_reachable KNLMS _ _ (Some (shift 6 tenth)) None); vm_compute; reflexivity|].
  split; [apply (sf_reachable KLlncosh _ _ None (Some tenth)); vm_compute; reflexivity|].
  split; [apply (sf_reachable KLlncosh _ _ None (Some (shift 5 tenth))); vm_compute; reflexivity|].
  split; [repeat constructor|].
  split. { apply all2_ok with (f := all2 (scaledb 3)); [intros a b; apply all2_ok, scaledb_ok|vm_compute; reflexivity]. }
  split. { apply all2_ok with (f := scaledb (-5)); [apply scaledb_ok|vm_compute; reflexivity]. }
  split. { apply all2_ok with (f := scaledb (-5 - 3)); [apply scaledb_ok|vm_compute; reflexivity]. }
  split. { split; apply scaledb_ok; vm_compute; reflexivity. }
  split. { split; apply scaledb_ok; vm_compute; reflexivity. }
  split; [smooth|]. split; [smooth|]. split; smooth.
Qed.

(** the powers of two matter: three times the targets do not give three times the outputs, though nothing underflows *)
Definition tripled (a b : float) : Prop := fin a /\ fin b /\ val b = 3 * val a.
Definition sf_run (d : list float) (x : list (list float)) (o : obj float) := @run _ sf_num d x o.
Theorem C121_only_powers_of_two : exists (o : obj float) d d3 x o' y e w o3' y3 e3 w3, @reachable _ sf_num 1 o /\ o_ext o = XLMS /\ rows_of 1 x /\
  Forall (fun a => val a = 0) (o_w o) /\ Forall2 tripled d d3 /\ smooth d x o /\ smooth d3 x o /\
  sf_run d x o = (o', Ok (y, e, w)) /\ sf_run d3 x o = (o3', Ok (y3, e3, w3)) /\ ~ Forall2 tripled y y3.
Proof.
  pose (o := mkObj [PrimFloat.zero] 1 tenth None (@XLMS float)). pose (d := [PrimFloat.one; PrimFloat.one]). pose (d3 := [f_of_Z 3; f_of_Z 3]). pose (x := [[tenth]; [tenth]]).
  exists o, d, d3, x. unfold sf_run.
  destruct (@run _ sf_num d x o) as [o' r] eqn:E. destruct (@run _ sf_num d3 x o) as [o3' r3] eqn:E3.
  vm_compute in E. injection E as E1 E2. vm_compute in E3. injection E3 as E31 E32. subst r r3.
  do 8 eexists.
  split. { apply (@reach_new _ sf_num 1 (fun j => repeat PrimFloat.zero j) KLMS (mkKw (Some 1%Z) (Some tenth) (Some (WStr "zeros")) None None None None None None None None false));
    [intros j; apply repeat_length|split; discriminate|reflexivity|vm_compute; reflexivity]. }
  split; [reflexivity|]. split; [repeat constructor|]. split; [constructor; [exact (proj2 zero_fin)|constructor]|].
  split. { assert (T : tripled PrimFloat.one (f_of_Z 3)).
    { split; [exact I|]. split; [exact I|]. rewrite val_one, val_Q. vm_compute (valQ _). unfold Q2R. cbn [Qnum Qden]. lra. }
    repeat (constructor; [exact T|]). constructor. }
  split; [unfold o, d, x; smooth|]. split; [unfold o, d3, x; smooth|]. split; [reflexivity|]. split; [reflexivity|].
  intros H. inversion H as [|a b u v _ H2]; subst. inversion H2 as [|a' b' u' v' H3 _]; subst. destruct H3 as (_ & _ & H3).
  rewrite !val_Q in H3. replace 3 with (Q2R 3) in H3 by (unfold Q2R; cbn [Qnum Qden]; lra). rewrite <- Q2R_mult in H3.
  apply eqR_Qeq in H3. vm_compute in H3. discriminate.
Qed.

(** so does the absence of underflow: in a unit 2^1070 times larger everything is a power-of-two multiple, every number is finite,
    and the outputs are different *)
Theorem C121_underflow : exists (o : obj float) d d2 x o' y e w o2' y2 e2 w2, @reachable _ sf_num 1 o /\ o_ext o = XLMS /\ rows_of 1 x /\
  Forall (fun a => val a = 0) (o_w o) /\ Forall2 (scaled (-1070)) d d2 /\ smooth d x o /\
  sf_run d x o = (o', Ok (y, e, w)) /\ sf_run d2 x o = (o2', Ok (y2, e2, w2)) /\
  Forall fin y2 /\ Forall fin e2 /\ Forall (Forall fin) w2 /\ Forall fin (o_w o2') /\ ~ Forall2 (scaled (-1070)) y y2.
Proof.
  pose (o := mkObj [PrimFloat.zero] 1 tenth None (@XLMS float)). pose (d := [PrimFloat.one; PrimFloat.one]). pose (d2 := [shift (-1070) PrimFloat.one; shift (-1070) PrimFloat.one]).
  pose (x := [[PrimFloat.one]; [PrimFloat.one]]).
  exists o, d, d2, x. unfold sf_run.
  destruct (@run _ sf_num d x o) as [o' r] eqn:E. destruct (@run _ sf_num d2 x o) as [o3' r3] eqn:E3.
  vm_compute in E. injection E as E1 E2. vm_compute in E3. injection E3 as E31 E32. subst r r3.
  do 8 eexists.
  split. { apply (@reach_new _ sf_num 1 (fun j => repeat PrimFloat.zero j) KLMS (mkKw (Some 1%Z) (Some tenth) (Some (WStr "zeros")) None None None None None None None None false));
    [intros j; apply repeat_length|split; discriminate|reflexivity|vm_compute; reflexivity]. }
  split; [reflexivity|]. split; [repeat constructor|]. split; [constructor; [exact (proj2 zero_fin)|constructor]|].
  split. { assert (T : scaled (-1070) PrimFloat.one (shift (-1070) PrimFloat.one)).
    { split; [exact I|]. split; [apply finb_ok; vm_compute; reflexivity|]. rewrite val_one, Rmult_1_l. unfold val.
      replace (Prim2SF (shift (-1070) PrimFloat.one)) with (S754_finite false 16 (-1074)) by (vm_compute; reflexivity).
      replace (-1070)%Z with (4 + -1074)%Z by lia. rewrite (powerRZ_add 2 4 (-1074)) by lra. assert (P16 : powerRZ 2 4 = 16) by (change (powerRZ 2 4) with (2 ^ 4)%R; ring). rewrite P16. ring. }
    repeat (constructor; [exact T|]). constructor. }
  split; [unfold o, d, x; smooth|]. split; [reflexivity|]. split; [reflexivity|].
  split; [apply finb_all; vm_compute; reflexivity|]. split; [apply finb_all; vm_compute; reflexivity|].
  split; [repeat (constructor; [apply finb_all; vm_compute; reflexivity|]); constructor|]. split; [apply finb_all; rewrite <- E31; vm_compute; reflexivity|].
  intros H. inversion H as [|a b u v _ H2]; subst. inversion H2 as [|a' b' u' v' H3 _]; subst. destruct H3 as (_ & _ & H3).
  rewrite !val_Q in H3.
  assert (P : powerRZ 2 (-1070) = Q2R (/ inject_Z (2 ^ 1070))).
  { rewrite Q2R_inv by (intros C; vm_compute in C; discriminate). replace (Q2R (inject_Z (2 ^ 1070))) with (IZR (2 ^ 1070)) by (unfold Q2R; cbn [Qnum Qden inject_Z]; rewrite Rinv_1; ring).
    rewrite pow_b. exact (bpow_opp radix2 1070). }
  rewrite P, <- Q2R_mult in H3. apply eqR_Qeq in H3. vm_compute in H3. discriminate.
Qed.
