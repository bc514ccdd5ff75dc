(** C96: the MLP in binary64: activations stay in range whatever exp overflows to, saturation is exact, and a saturated node
    never learns again. *)
From Coq Require Import ZArith QArith Qreals Reals Lra Psatz Permutation Uint63 FloatOps FloatAxioms SpecFloat.
From Coq Require PrimFloat.
From Flocq Require Import Core BinarySingleNaN.
From Flocq Require IEEE754.PrimFloat.
From Verif Require Import Py Num NumF Numpy Spec StructProofs Mlp PropsMLP PropsBackprop FloatErr PropsRound PropsRoundRun PropsWindup PropsNoOverflow PropsMeasureF.
Open Scope R_scope.
#[local] Existing Instance Flocq.IEEE754.PrimFloat.Hprec.
#[local] Existing Instance Flocq.IEEE754.PrimFloat.Hmax.
#[local] Notation bin := Flocq.IEEE754.PrimFloat.Prim2B.
#[local] Notation val := FloatErr.val.
#[local] Notation float := PrimFloat.float.

(** ** Specification *)
Definition not_nan (a : float) : Prop := PrimFloat.eqb a a = true.
(** 0 <= a <= infinity, not nan *)
Definition nonneg (a : float) : Prop := PrimFloat.leb PrimFloat.zero a = true.
Definition infinite (a : float) : Prop := Prim2SF a = S754_infinity false.
Definition low (f : actf) : R := match f with Sigmoid => 0 | Tanh => -1 end.

(** ** Rounding facts *)
Lemma rnd_le a b : a <= b -> rnd a <= rnd b.
Proof. intros H. apply round_le; [apply FLT_exp_valid; reflexivity|apply valid_rnd_round_mode|exact H]. Qed.
Lemma rnd_val a : rnd (val a) = val a.
Proof. rewrite val_B. apply round_generic; [apply valid_rnd_round_mode|apply generic_format_B2R]. Qed.
Lemma two_val : val PrimFloat.two = 2.
Proof. rewrite val_Q. assert (E : Qeq (valQ PrimFloat.two) 2) by (vm_compute; reflexivity). rewrite (Qeq_eqR _ _ E). unfold Q2R. cbn. lra. Qed.
Lemma fin_one : fin PrimFloat.one. Proof. apply finb_ok. vm_compute. reflexivity. Qed.
Lemma fin_two : fin PrimFloat.two. Proof. apply finb_ok. vm_compute. reflexivity. Qed.
Lemma zero_val : val PrimFloat.zero = 0.
Proof. apply zr_val, zero_zr. Qed.
Lemma rnd_0 : rnd 0 = 0. Proof. rewrite <- zero_val. apply rnd_val. Qed.
Lemma rnd_1 : rnd 1 = 1. Proof. rewrite <- one_val at 1. rewrite rnd_val. apply one_val. Qed.
Lemma rnd_2 : rnd 2 = 2. Proof. rewrite <- two_val at 1. rewrite rnd_val. apply two_val. Qed.
Lemma rnd_m1 : rnd (-1) = -1.
Proof.
  assert (E : val (PrimFloat.opp PrimFloat.one) = -1). { rewrite val_Q. assert (E : Qeq (valQ (PrimFloat.opp PrimFloat.one)) (-1)) by (vm_compute; reflexivity). rewrite (Qeq_eqR _ _ E). unfold Q2R. cbn. lra. }
  rewrite <- E. apply rnd_val.
Qed.
Lemma cap_big : 4 <= cap.
Proof. unfold cap. apply Rle_trans with (2 ^ 2); [lra|]. apply Rle_pow; [lra|leb]. Qed.

Lemma nonneg_cases a : nonneg a -> (fin a /\ 0 <= val a) \/ infinite a.
Proof.
  unfold nonneg, infinite, fin, val. rewrite FloatAxioms.leb_spec. destruct (Prim2SF a) as [s|s| |s m e]; cbn.
  - left. split; [auto|lra].
  - destruct s; cbn; [discriminate|auto].
  - discriminate.
  - destruct s; cbn; [discriminate|]. intros _. left. split; [auto|]. apply Rmult_le_pos; [|left; apply powerRZ_lt; lra]. apply Rmult_le_pos; [lra|]. apply IZR_le. lia.
Qed.

(** 1 + z for z >= 0 *)
Definition pos1 (m : R) (D : float) : Prop := (fin D /\ m <= val D) \/ infinite D.
Lemma one_plus z m : nonneg z -> (infinite z \/ rnd m = m /\ m <= 1 + val z) -> pos1 m (PrimFloat.add PrimFloat.one z).
Proof.
  intros Hz Hm. destruct (nonneg_cases z Hz) as [(Fz & Pz)|Iz].
  - destruct Hm as [Hm|(Rm & Hm)]; [unfold infinite, fin in *; rewrite Hm in Fz; contradiction|].
    assert (F1 : is_finite (bin PrimFloat.one) = true) by (apply fin_B, fin_one). assert (F2 : is_finite (bin z) = true) by (apply fin_B, Fz).
    pose proof (Bplus_correct FloatOps.prec FloatOps.emax Flocq.IEEE754.PrimFloat.Hprec Flocq.IEEE754.PrimFloat.Hmax mode_NE _ _ F1 F2) as C.
    destruct (Rlt_bool _ _).
    + left. destruct C as (C1 & C2 & _). assert (F : fin (PrimFloat.add PrimFloat.one z)) by (apply fin_B; rewrite Flocq.IEEE754.PrimFloat.add_equiv; exact C2).
      split; [exact F|]. rewrite (add_round _ _ F), one_val. rewrite <- Rm. apply rnd_le. exact Hm.
    + right. destruct C as (C & _). unfold infinite. rewrite <- Flocq.IEEE754.PrimFloat.B2SF_Prim2B, Flocq.IEEE754.PrimFloat.add_equiv.
      rewrite C. assert (E : Bsign (bin PrimFloat.one) = false) by (vm_compute; reflexivity). rewrite E. reflexivity.
  - right. unfold infinite. rewrite add_spec, Iz. vm_compute. reflexivity.
Qed.
Lemma div_pos1 c m D : fin c -> 0 <= val c <= 2 -> 1 <= m -> pos1 m D ->
  fin (PrimFloat.div c D) /\ 0 <= val (PrimFloat.div c D) <= rnd (val c / m).
Proof.
  intros Fc Hc Hm [(FD & HD)|ID].
  - assert (Q : 0 <= val c / val D <= val c / m).
    { split; [apply Rmult_le_pos; [lra|left; apply Rinv_0_lt_compat; lra]|]. apply Rmult_le_compat_l; [lra|]. apply Rinv_le_contravar; lra. }
    assert (Q2 : val c / m <= 2). { unfold Rdiv. assert (/ m <= 1) by (rewrite <- Rinv_1; apply Rinv_le_contravar; lra). apply Rle_trans with (val c * 1); [apply Rmult_le_compat_l; lra|lra]. }
    assert (F : fin (PrimFloat.div c D)) by (apply div_ok; auto; [lra|rewrite Rabs_pos_eq by lra; pose proof cap_big; lra]).
    split; [exact F|]. destruct (div_round _ _ F FD ltac:(lra)) as (_ & ->). split; [apply rnd_nonneg; lra|apply rnd_le; lra].
  - assert (Z : zr (PrimFloat.div c D)).
    { unfold zr. rewrite div_spec. unfold infinite in ID. rewrite ID. unfold fin in Fc. destruct (Prim2SF c) as [s|s| |s m0 e]; cbn; auto. }
    split; [apply zr_fin; exact Z|]. rewrite (zr_val _ Z). split; [lra|]. apply rnd_nonneg. apply Rmult_le_pos; [lra|left; apply Rinv_0_lt_compat; lra].
Qed.
(** r - 1 and 1 - r *)
Lemma minus_one r lo hi : fin r -> 0 <= val r <= 2 -> rnd lo = lo -> lo <= val r - 1 <= hi ->
  fin (PrimFloat.sub r PrimFloat.one) /\ lo <= val (PrimFloat.sub r PrimFloat.one) <= rnd hi.
Proof.
  intros Fr Hr Rl H. assert (F : fin (PrimFloat.sub r PrimFloat.one)).
  { apply sub_ok; [exact Fr|exact fin_one|]. rewrite one_val, Rabs_R1, Rabs_pos_eq by lra. pose proof cap_big. lra. }
  split; [exact F|]. destruct (sub_opp _ _ F) as (_ & _ & ->). rewrite one_val. split; [rewrite <- Rl; apply rnd_le; lra|apply rnd_le; lra].
Qed.
Lemma one_minus r : fin r -> 0 <= val r <= 1 -> fin (PrimFloat.sub PrimFloat.one r) /\ 0 <= val (PrimFloat.sub PrimFloat.one r) <= 1.
Proof.
  intros Fr Hr. assert (F : fin (PrimFloat.sub PrimFloat.one r)).
  { apply sub_ok; [exact fin_one|exact Fr|]. rewrite one_val, Rabs_R1, Rabs_pos_eq by lra. pose proof cap_big. lra. }
  split; [exact F|]. destruct (sub_opp _ _ F) as (_ & _ & ->). rewrite one_val. split; [apply rnd_nonneg; lra|]. apply Rle_trans with (rnd 1); [apply rnd_le; lra|right; apply rnd_1].
Qed.
Lemma unit_mul a b : fin a -> fin b -> 0 <= val a * val b <= 1 -> fin (PrimFloat.mul a b) /\ 0 <= val (PrimFloat.mul a b) <= 1.
Proof.
  intros Fa Fb H. assert (F : fin (PrimFloat.mul a b)) by (apply mul_ok; auto; rewrite Rabs_pos_eq by lra; pose proof cap_big; lra).
  split; [exact F|]. destruct (mul_round _ _ F) as (_ & _ & ->). split; [apply rnd_nonneg; lra|]. apply Rle_trans with (rnd 1); [apply rnd_le; lra|right; apply rnd_1].
Qed.
Lemma one_minus_one r : fin r -> val r = 1 -> zr (PrimFloat.sub PrimFloat.one r).
Proof.
  intros Fr Hr. destruct (one_minus r Fr ltac:(lra)) as (F & _). apply fin_zero_zr; [exact F|]. destruct (sub_opp _ _ F) as (_ & _ & ->). rewrite one_val, Hr, Rminus_diag_eq by reflexivity. apply rnd_0.
Qed.
Lemma nan_opp x : not_nan x -> not_nan (PrimFloat.opp x).
Proof.
  unfold not_nan. rewrite !FloatAxioms.eqb_spec, opp_spec. destruct (Prim2SF x) as [s|s| |s m e]; cbn; auto.
  - destruct s; auto.
  - unfold SFeqb, SFcompare. cbn. rewrite Z.compare_refl, Pos.compare_refl. destruct s; cbn; auto.
Qed.
Lemma SF_refl v : v <> S754_nan -> SFeqb v v = true.
Proof. destruct v as [s|s| |s m e]; intros H; try reflexivity; try (destruct s; reflexivity); [congruence|]. unfold SFeqb, SFcompare. rewrite Z.compare_refl, Pos.compare_cont_refl. destruct s; reflexivity. Qed.
Lemma not_nan_SF x : not_nan x <-> Prim2SF x <> S754_nan.
Proof. unfold not_nan. rewrite FloatAxioms.eqb_spec. split; [intros H E; rewrite E in H; discriminate|apply SF_refl]. Qed.
Lemma nan_mul_m2 x : not_nan x -> not_nan (PrimFloat.mul (PrimFloat.opp PrimFloat.two) x).
Proof.
  rewrite !not_nan_SF. intros H. destruct (fin_dec x) as [Fx|Fx].
  - rewrite <- Flocq.IEEE754.PrimFloat.B2SF_Prim2B, Flocq.IEEE754.PrimFloat.mul_equiv.
    pose proof (Bmult_correct FloatOps.prec FloatOps.emax Flocq.IEEE754.PrimFloat.Hprec Flocq.IEEE754.PrimFloat.Hmax mode_NE (bin (PrimFloat.opp PrimFloat.two)) (bin x)) as C.
    destruct (Rlt_bool _ _).
    + destruct C as (_ & C & _). apply fin_B in Fx. rewrite Fx in C. assert (E : is_finite (bin (PrimFloat.opp PrimFloat.two)) = true) by (vm_compute; reflexivity).
      rewrite E in C. cbn [andb] in C. destruct (Bmult _ _ _); cbn in *; congruence.
    + rewrite C. unfold binary_overflow. cbn. discriminate.
  - rewrite mul_spec. assert (E : exists m e, Prim2SF (PrimFloat.opp PrimFloat.two) = S754_finite true m e) by (do 2 eexists; vm_compute; reflexivity).
    destruct E as (m2 & e2 & ->). unfold fin in Fx. destruct (Prim2SF x) as [s|s| |s m e]; try tauto; [destruct s; cbn; discriminate].
Qed.

Definition tiny : float := FloatOps.Z.ldexp PrimFloat.one (-54).
Definition big : float := FloatOps.Z.ldexp PrimFloat.one 56.
Definition big_inv : float := FloatOps.Z.ldexp PrimFloat.one (-55).
Lemma ldexp_val (f : float) (q : Q) : Qeq (valQ f) q -> val f = Q2R q.
Proof. intros E. rewrite val_Q. apply Qeq_eqR. exact E. Qed.
Lemma rnd_tiny : rnd (1 + / 2 ^ 54) = 1.
Proof.
  assert (F : fin (PrimFloat.add PrimFloat.one tiny)) by (apply finb_ok; vm_compute; reflexivity).
  pose proof (add_round _ _ F) as E. rewrite one_val in E.
  assert (T : val tiny = / 2 ^ 54). { rewrite (ldexp_val tiny (1 # 2 ^ 54)) by (vm_compute; reflexivity). unfold Q2R. cbn [Qnum Qden]. replace (IZR (Z.pos (2 ^ 54))) with (2 ^ 54); [lra|]. exact (pow_IZR 2 54). }
  rewrite T in E. rewrite <- E. rewrite <- one_val. f_equal.
Qed.
Lemma rnd_big : rnd (1 + 2 ^ 56) = 2 ^ 56.
Proof.
  assert (F : fin (PrimFloat.add PrimFloat.one big)) by (apply finb_ok; vm_compute; reflexivity).
  pose proof (add_round _ _ F) as E. rewrite one_val in E.
  assert (T : val big = 2 ^ 56). { rewrite (ldexp_val big (inject_Z (2 ^ 56))) by (vm_compute; reflexivity). unfold Q2R, inject_Z. cbn [Qnum Qden]. rewrite Rinv_1, Rmult_1_r. symmetry. exact (pow_IZR 2 56). }
  rewrite T in E. rewrite <- E. rewrite <- T. f_equal.
Qed.
Lemma rnd_big0 : rnd (2 ^ 56) = 2 ^ 56.
Proof.
  assert (T : val big = 2 ^ 56). { rewrite (ldexp_val big (inject_Z (2 ^ 56))) by (vm_compute; reflexivity). unfold Q2R, inject_Z. cbn [Qnum Qden]. rewrite Rinv_1, Rmult_1_r. symmetry. exact (pow_IZR 2 56). }
  rewrite <- T. apply rnd_val.
Qed.
Lemma rnd_big_inv : rnd (/ 2 ^ 55) = / 2 ^ 55 /\ rnd (/ 2 ^ 55 - 1) = -1.
Proof.
  assert (T : val big_inv = / 2 ^ 55). { rewrite (ldexp_val big_inv (1 # 2 ^ 55)) by (vm_compute; reflexivity). unfold Q2R. cbn [Qnum Qden]. replace (IZR (Z.pos (2 ^ 55))) with (2 ^ 55); [lra|]. exact (pow_IZR 2 55). }
  split; [rewrite <- T; apply rnd_val|].
  assert (F : fin (PrimFloat.sub big_inv PrimFloat.one)) by (apply finb_ok; vm_compute; reflexivity).
  destruct (sub_opp _ _ F) as (_ & _ & E). rewrite one_val, T in E. rewrite <- E.
  rewrite (ldexp_val _ (-1)) by (vm_compute; reflexivity). unfold Q2R. cbn. lra.
Qed.

Section C96.
  Variable solve : list (list float) -> list (list float) -> option (list (list float)).
  Variables (tanh exp : float -> float) (power : float -> float -> float) (sum : list float -> float) (dot : list float -> list float -> float).
  #[local] Hint Extern 0 (Num float) => exact (FNumD solve tanh exp power sum dot) : typeclass_instances.
  Notation net := (net float).
  Notation layer := (layer float).

  Lemma n1_one : n1 = PrimFloat.one. Proof. vm_compute. reflexivity. Qed.
  Lemma n2_two : n2 = PrimFloat.two. Proof. vm_compute. reflexivity. Qed.
  Lemma act_sigmoid x : act Sigmoid x = PrimFloat.div PrimFloat.one (PrimFloat.add PrimFloat.one (exp (PrimFloat.opp x))).
  Proof. unfold act. rewrite n1_one. reflexivity. Qed.
  Lemma act_tanh x : act Tanh x = PrimFloat.sub (PrimFloat.div PrimFloat.two (PrimFloat.add PrimFloat.one (exp (PrimFloat.mul (PrimFloat.opp PrimFloat.two) x)))) PrimFloat.one.
  Proof. unfold act. rewrite n1_one, n2_two. reflexivity. Qed.
  Lemma der_sigmoid y : act_der Sigmoid y = PrimFloat.mul y (PrimFloat.sub PrimFloat.one y).
  Proof. unfold act_der. rewrite n1_one. reflexivity. Qed.
  Lemma der_tanh y : act_der Tanh y = PrimFloat.sub PrimFloat.one (PrimFloat.mul y y).
  Proof. unfold act_der. rewrite n1_one. reflexivity. Qed.

  Section Activation.
  Hypothesis exp_ok : forall x, not_nan x -> nonneg (exp x).

  (** ** every activation is a finite number in its range, and so is its slope, even where exp overflows *)
  Theorem C96_range : forall f x, not_nan x -> let y := act f x in
    fin y /\ low f <= val y <= 1 /\ fin (act_der f y) /\ 0 <= val (act_der f y) <= 1.
  Proof.
    intros f x Hx y.
    assert (Y : fin y /\ low f <= val y <= 1).
    { unfold y. destruct f; cbn [low].
      - rewrite act_sigmoid. pose proof (exp_ok _ (nan_opp x Hx)) as Hz. set (z := exp (PrimFloat.opp x)) in *.
        assert (P : pos1 1 (PrimFloat.add PrimFloat.one z)).
        { apply one_plus; [exact Hz|]. destruct (nonneg_cases z Hz) as [(_ & H)|H]; [right|left; exact H]. split; [apply rnd_1|lra]. }
        destruct (div_pos1 PrimFloat.one 1 _ fin_one ltac:(rewrite one_val; lra) ltac:(lra) P) as (F & L & U). split; [exact F|].
        rewrite one_val in U. replace (1 / 1) with 1 in U by lra. rewrite rnd_1 in U. lra.
      - rewrite act_tanh. pose proof (exp_ok _ (nan_mul_m2 x Hx)) as Hz. set (z := exp _) in *.
        assert (P : pos1 1 (PrimFloat.add PrimFloat.one z)).
        { apply one_plus; [exact Hz|]. destruct (nonneg_cases z Hz) as [(_ & H)|H]; [right|left; exact H]. split; [apply rnd_1|lra]. }
        destruct (div_pos1 PrimFloat.two 1 _ fin_two ltac:(rewrite two_val; lra) ltac:(lra) P) as (F & L & U).
        rewrite two_val in U. replace (2 / 1) with 2 in U by lra. rewrite rnd_2 in U.
        destruct (minus_one _ (-1) 1 F ltac:(lra) rnd_m1 ltac:(lra)) as (F2 & L2 & U2). rewrite rnd_1 in U2. auto. }
    destruct Y as (Fy & Hy). split; [exact Fy|]. split; [exact Hy|]. destruct f; cbn [low] in Hy.
    - rewrite der_sigmoid. destruct (one_minus y Fy Hy) as (F1 & H1). apply unit_mul; auto. split; [apply Rmult_le_pos; lra|].
      apply Rle_trans with (1 * 1); [apply Rmult_le_compat; lra|lra].
    - rewrite der_tanh. destruct (unit_mul y y Fy Fy) as (F1 & H1); [nra|]. apply one_minus; auto.
  Qed.

  (** ** saturation is exact: the output is an end of the range and the slope is zero *)
  Definition small (a : float) : Prop := fin a /\ 0 <= val a <= / 2 ^ 54.
  Definition large (a : float) : Prop := (fin a /\ 2 ^ 56 <= val a) \/ infinite a.
  Lemma small_plus z : small z -> fin (PrimFloat.add PrimFloat.one z) /\ val (PrimFloat.add PrimFloat.one z) = 1.
  Proof.
    intros (F & H0 & H1). assert (T : / 2 ^ 54 <= 1) by (rewrite <- Rinv_1; apply Rinv_le_contravar; [lra|apply pow_R1_Rle; lra]).
    assert (FA : fin (PrimFloat.add PrimFloat.one z)) by (apply add_ok; auto using fin_one; rewrite one_val, Rabs_R1, Rabs_pos_eq by lra; pose proof cap_big; lra).
    split; [exact FA|]. rewrite (add_round _ _ FA), one_val. apply Rle_antisym.
    - apply Rle_trans with (rnd (1 + / 2 ^ 54)); [apply rnd_le; lra|right; apply rnd_tiny].
    - apply Rle_trans with (rnd 1); [right; symmetry; apply rnd_1|apply rnd_le; lra].
  Qed.
  Lemma div_one c D : fin c -> 0 <= val c <= 2 -> fin D -> val D = 1 -> fin (PrimFloat.div c D) /\ val (PrimFloat.div c D) = val c.
  Proof.
    intros Fc Hc FD HD. assert (F : fin (PrimFloat.div c D)) by (apply div_ok; auto; [lra|rewrite HD; unfold Rdiv; rewrite Rinv_1, Rmult_1_r, Rabs_pos_eq by lra; pose proof cap_big; lra]).
    split; [exact F|]. destruct (div_round _ _ F FD ltac:(lra)) as (_ & ->). rewrite HD. unfold Rdiv. rewrite Rinv_1, Rmult_1_r. apply rnd_val.
  Qed.

  Theorem C96_saturation : forall x,
    (small (exp (PrimFloat.opp x)) -> val (act Sigmoid x) = 1 /\ is_zero (act_der Sigmoid (act Sigmoid x))) /\
    (infinite (exp (PrimFloat.opp x)) -> val (act Sigmoid x) = 0 /\ is_zero (act_der Sigmoid (act Sigmoid x))) /\
    (small (exp (PrimFloat.mul (PrimFloat.opp PrimFloat.two) x)) -> val (act Tanh x) = 1 /\ is_zero (act_der Tanh (act Tanh x))) /\
    (large (exp (PrimFloat.mul (PrimFloat.opp PrimFloat.two) x)) -> val (act Tanh x) = -1 /\ is_zero (act_der Tanh (act Tanh x))).
  Proof.
    intros x. rewrite act_sigmoid, act_tanh, !der_sigmoid, !der_tanh. rewrite !zr_spec. set (z := exp (PrimFloat.opp x)). set (z2 := exp (PrimFloat.mul _ x)).
    assert (SQ : forall y, fin y -> val y * val y = 1 -> zr (PrimFloat.sub PrimFloat.one (PrimFloat.mul y y))).
    { intros y Fy Hy. destruct (unit_mul y y Fy Fy ltac:(lra)) as (FM & _). apply one_minus_one; [exact FM|]. destruct (mul_round _ _ FM) as (_ & _ & ->). rewrite Hy. apply rnd_1. }
    split; [|split; [|split]].
    - intros H. destruct (small_plus z H) as (F1 & V1). destruct (div_one PrimFloat.one _ fin_one ltac:(rewrite one_val; lra) F1 V1) as (F2 & V2). rewrite one_val in V2.
      split; [exact V2|]. apply mul_zr_r; [exact F2|]. apply one_minus_one; [exact F2|exact V2].
    - intros H. assert (ID : infinite (PrimFloat.add PrimFloat.one z)) by (unfold infinite in *; rewrite add_spec, H; vm_compute; reflexivity).
      assert (Z : zr (PrimFloat.div PrimFloat.one (PrimFloat.add PrimFloat.one z))) by (unfold zr, infinite in *; rewrite div_spec, ID; vm_compute; exact I).
      split; [apply zr_val; exact Z|]. apply mul_zr_l; [exact Z|]. apply one_minus; [apply zr_fin; exact Z|]. rewrite (zr_val _ Z). lra.
    - intros H. destruct (small_plus z2 H) as (F1 & V1). destruct (div_one PrimFloat.two _ fin_two ltac:(rewrite two_val; lra) F1 V1) as (F2 & V2). rewrite two_val in V2.
      destruct (minus_one _ 1 1 F2 ltac:(lra) rnd_1 ltac:(lra)) as (F3 & V3). rewrite rnd_1 in V3.
      split; [lra|]. apply SQ; [exact F3|]. replace (FloatErr.val (PrimFloat.sub (PrimFloat.div PrimFloat.two (PrimFloat.add PrimFloat.one z2)) PrimFloat.one)) with 1 by lra. lra.
    - intros H. assert (HP : 2 <= 2 ^ 56) by (apply Rle_trans with (2 ^ 1); [lra|apply Rle_pow; [lra|leb]]).
      assert (P : pos1 (2 ^ 56) (PrimFloat.add PrimFloat.one z2)).
      { destruct H as [(F & H)|H].
        - assert (FN : nonneg z2). { unfold nonneg. rewrite FloatAxioms.leb_spec. unfold fin, val in F, H. destruct (Prim2SF z2) as [s|s| |s m e]; try contradiction; [reflexivity|].
            destruct s; [|reflexivity]. exfalso. assert (0 < IZR (Z.pos m) * powerRZ 2 e) by (apply Rmult_lt_0_compat; [apply IZR_lt; reflexivity|apply powerRZ_lt; lra]). lra. }
          apply one_plus; [exact FN|]. right. split; [apply rnd_big0|lra].
        - right. unfold infinite in *; rewrite add_spec, H; vm_compute; reflexivity. }
      destruct (div_pos1 PrimFloat.two (2 ^ 56) _ fin_two ltac:(rewrite two_val; lra) ltac:(lra) P) as (F1 & L1 & U1). rewrite two_val in U1.
      replace (2 / 2 ^ 56) with (/ 2 ^ 55) in U1.
      2:{ replace (2 ^ 56) with (2 * 2 ^ 55) by (change 56%nat with (S 55); reflexivity). field; try (apply pow_nonzero; lra). }
      destruct rnd_big_inv as (RB1 & RB2). rewrite RB1 in U1.
      assert (HB : / 2 ^ 55 <= 1) by (rewrite <- Rinv_1; apply Rinv_le_contravar; [lra|apply pow_R1_Rle; lra]).
      destruct (minus_one _ (-1) (/ 2 ^ 55 - 1) F1 ltac:(lra) rnd_m1 ltac:(lra)) as (F2 & L2 & U2). rewrite RB2 in U2.
      split; [lra|]. apply SQ; [exact F2|]. match goal with |- ?a * _ = 1 => replace a with (-1) by lra end. lra.
  Qed.
  End Activation.

  (** with an exp of the right size: saturation from 42 (sigmoid) and 21 (tanh) on *)
  Lemma exp_42 z : z <= -42 -> 2 * Rtrigo_def.exp z <= / 2 ^ 54.
  Proof.
    intros Hz. assert (E1 : 5 / 2 <= Rtrigo_def.exp 1).
    { pose proof (exp_ineq1 (/ 8) ltac:(lra)) as H. replace 1 with (INR 8 * / 8) by (cbn; lra). 
      assert (HP : forall k a, Rtrigo_def.exp (INR k * a) = Rtrigo_def.exp a ^ k).
      { induction k as [|k IH]; intros a; [rewrite Rmult_0_l; apply exp_0|]. rewrite S_INR, Rmult_plus_distr_r, Rmult_1_l, exp_plus, IH. cbn. ring. }
      rewrite HP. apply Rle_trans with ((9 / 8) ^ 8); [lra|]. apply pow_incr. lra. }
    assert (E42 : 2 ^ 55 <= Rtrigo_def.exp 42).
    { replace 42 with (INR 42 * 1) by (cbn; lra).
      assert (HP : forall k a, Rtrigo_def.exp (INR k * a) = Rtrigo_def.exp a ^ k).
      { induction k as [|k IH]; intros a; [rewrite Rmult_0_l; apply exp_0|]. rewrite S_INR, Rmult_plus_distr_r, Rmult_1_l, exp_plus, IH. cbn. ring. }
      rewrite HP. apply Rle_trans with ((5 / 2) ^ 42); [|apply pow_incr; lra].
      apply Rmult_le_reg_r with (2 ^ 42); [apply pow_lt; lra|]. rewrite <- pow_add, <- Rpow_mult_distr. replace (5 / 2 * 2) with 5 by lra.
      replace (2 ^ (55 + 42)) with (IZR (2 ^ 97)) by (symmetry; exact (pow_IZR 2 97)). replace (5 ^ 42) with (IZR (5 ^ 42)) by (symmetry; exact (pow_IZR 5 42)).
      apply IZR_le. vm_compute. discriminate. }
    assert (EZ : Rtrigo_def.exp z <= / 2 ^ 55).
    { rewrite <- (Ropp_involutive z), exp_Ropp. apply Rinv_le_contravar; [apply pow_lt; lra|]. eapply Rle_trans; [exact E42|].
      destruct (Req_dec 42 (- z)) as [->|Hn]; [lra|]. left. apply exp_increasing. lra. }
    replace (2 ^ 55) with (2 * 2 ^ 54) in EZ by (change 55%nat with (S 54); reflexivity). rewrite Rinv_mult in EZ. lra.
  Qed.
  Theorem C96_thresholds : (forall x, fin x -> val x <= 0 -> fin (exp x) /\ 0 <= val (exp x) <= 2 * Rtrigo_def.exp (val x)) ->
    forall x, fin x ->
    (42 <= val x -> val (act Sigmoid x) = 1 /\ is_zero (act_der Sigmoid (act Sigmoid x))) /\
    (21 <= val x <= 2 ^ 900 -> val (act Tanh x) = 1 /\ is_zero (act_der Tanh (act Tanh x))).
  Proof.
    intros HE x Fx. destruct (C96_saturation x) as (S1 & _ & S3 & _). split; intros Hx.
    - apply S1. assert (Fo : fin (PrimFloat.opp x)) by (apply fin_B; rewrite Flocq.IEEE754.PrimFloat.opp_equiv, is_finite_Bopp; apply fin_B; exact Fx).
      assert (Vo : val (PrimFloat.opp x) = - val x) by (rewrite !val_B, Flocq.IEEE754.PrimFloat.opp_equiv; apply B2R_Bopp).
      destruct (HE (PrimFloat.opp x) Fo ltac:(lra)) as (F & H0 & H1). split; [exact F|]. split; [exact H0|]. eapply Rle_trans; [exact H1|]. apply exp_42. lra.
    - apply S3. assert (V2 : val (PrimFloat.opp PrimFloat.two) = -2). { rewrite (ldexp_val _ (-2)) by (vm_compute; reflexivity). unfold Q2R. cbn. lra. }
      assert (F2 : fin (PrimFloat.opp PrimFloat.two)) by (apply finb_ok; vm_compute; reflexivity).
      assert (F : fin (PrimFloat.mul (PrimFloat.opp PrimFloat.two) x)).
      { apply mul_ok; auto. rewrite V2, Rabs_mult, (Rabs_pos_eq (val x)) by lra. replace (Rabs (-2)) with 2 by (rewrite Rabs_left by lra; lra).
        unfold cap. apply Rle_trans with (2 ^ 1 * 2 ^ 900); [lra|]. rewrite <- pow_add. apply Rle_pow; [lra|leb]. }
      destruct (mul_round _ _ F) as (_ & _ & V). rewrite V2 in V.
assert (V42 : val (f_of_Z (-42)) = -42). { rewrite (ldexp_val (f_of_Z (-42)) (-42)) by (vm_compute; reflexivity). unfold Q2R. cbn. lra. }
      assert (R42 : rnd (-42) = -42) by (rewrite <- V42; apply rnd_val).
      assert (B : val (PrimFloat.mul (PrimFloat.opp PrimFloat.two) x) <= -42) by (rewrite V, <- R42; apply rnd_le; lra).
      destruct (HE _ F ltac:(lra)) as (Fe & H0 & H1). split; [exact Fe|]. split; [exact H0|]. eapply Rle_trans; [exact H1|]. apply exp_42. exact B.
  Qed.

  (** ** a node whose slope is zero does not learn *)
  Definition dl : layer := mkLayer PrimFloat.zero 0 [] [] [] Sigmoid.
  (** the weights of node r of hidden layer q; its activation function; its output when the network is shown x *)
  Definition node_w (n : net) (q r : nat) : list float := nth r (l_w (nth q (m_layers n) dl)) [].
  Definition node_f (n : net) (q : nat) : actf := l_f (nth q (m_layers n) dl).
  Definition node_y (n : net) (x : list float) (q r : nat) : float := nth r (l_y (nth q (m_layers (fst (net_predict x n))) dl)) PrimFloat.zero.

  Lemma predict_layers_of x (n : net) : m_layers (fst (net_predict x n)) = fst (predict_layers (m_layers n) x).
  Proof.
    unfold net_predict. destruct (predict_layers (m_layers n) x) as [ls [h|ex]]; [|reflexivity].
    destruct (assign_tail _ _ _); [|reflexivity]. destruct (m_w n); [destruct (vdot _ _)|]; reflexivity.
  Qed.
  Lemma nth_map2 {A B C} (f : A -> B -> C) : forall u v i a b c, (i < length u)%nat -> (i < length v)%nat -> nth i (map2 f u v) c = f (nth i u a) (nth i v b).
  Proof. induction u as [|x u IH]; intros [|y v] [|i] a b c H1 H2; cbn [length] in *; try lia; cbn [map2 nth]; [reflexivity|]. apply IH; lia. Qed.
  Lemma nth_map_in {A B} (f : A -> B) l i a b : (i < length l)%nat -> nth i (map f l) b = f (nth i l a).
  Proof. intros H. rewrite (nth_indep (map f l) b (f a)) by (rewrite map_length; exact H). apply map_nth. Qed.

  Lemma bc_nth {A B C} (f : A -> B -> C) u v w i a c : bc f u v = Ok w -> length w = length u -> (i < length u)%nat -> exists b, nth i w c = f (nth i u a) b.
  Proof.
    unfold bc. destruct (Nat.eqb_spec (length u) (length v)) as [E|E].
    - intros H _ Hi. injection H as <-. destruct v as [|b0 v0]; [cbn [length] in E; lia|]. exists (nth i (b0 :: v0) b0). apply nth_map2; lia.
    - intros H HL Hi. destruct u as [|a0 [|a1 u]]; [cbn in Hi; lia| |].
      + injection H as <-. rewrite map_length in HL. cbn [length] in *. lia.
      + destruct v as [|b0 [|b1 v]]; try discriminate. injection H as <-. exists b0.
        change (nth i (map (fun a => f a b0) (a0 :: a1 :: u)) c = f (nth i (a0 :: a1 :: u) a) b0). apply (nth_map_in (fun a => f a b0)). exact Hi.
  Qed.
  Lemma bc_len {A B C} (f : A -> B -> C) u v w : bc f u v = Ok w -> length u = length w \/ length u = 1%nat.
  Proof.
    unfold bc. destruct (Nat.eqb_spec (length u) (length v)) as [E|E].
    - intros H. injection H as <-. left. rewrite map2_len. lia.
    - destruct u as [|a0 [|a1 u]]; [|auto|]; destruct v as [|b0 [|b1 v]]; intros H; try discriminate; injection H as <-; left; cbn; rewrite ?map_length; reflexivity.
  Qed.
  Lemma act_at_len (ls : list layer) x q : (q < length ls)%nat -> length (act_at ls x (S q)) = length (l_w (nth q ls dl)).
  Proof.
    intros Hq. unfold act_at.
    assert (E : firstn (S q) ls = firstn q ls ++ [nth q ls dl]).
    { clear x. revert q Hq; induction ls as [|l ls IH]; intros [|q] Hq; cbn [firstn nth app length] in *; try lia; auto.
      f_equal. apply IH; lia. }
    rewrite E, map_app. generalize (map layer_par (firstn q ls)). intros ps. revert x. induction ps as [|[[[m c] W] f] ps IH]; intros x; cbn [app hidden map layer_par]; [apply map_length|apply IH].
  Qed.

  (** what one learning step adds to weight c of node r *)
  Lemma node_step sizes k o n x d q r : net_ok sizes k o n -> length x = k -> vlen d o -> (q < length (m_layers n))%nat -> (r < length (l_w (nth q (m_layers n) dl)))%nat ->
    exists (el : float) (v : list float), length v = length (node_w n q r) /\
      node_w (learn n (x, d)) q r = map2 PrimFloat.add (node_w n q r) (map (fun a => PrimFloat.mul (l_mu (nth q (m_layers n) dl)) (PrimFloat.mul el a)) v) /\
      (exists s t, el = PrimFloat.mul (PrimFloat.mul (act_der (node_f n q) (node_y n x q r)) s) t).
  Proof.
    intros HO Hx Hd Hq Hr. destruct (learn_state sizes k o n x d dl HO Hx Hd) as (w' & wold & ls' & del & EO & _ & EL & LL & HQ). cbv zeta in HQ.
    specialize (HQ q Hq). destruct HQ as (HE & Hlen & HW). set (l := nth q (m_layers n) dl) in *.
    pose proof HO as (_ & _ & _ & HLS & _).
    assert (HY : node_y n x q r = nth r (act_at (m_layers n) x (S q)) PrimFloat.zero).
    { unfold node_y. rewrite predict_layers_of. pose proof (predict_layers_state sizes (m_layers n) k x q dl HLS Hx Hq) as P. cbv zeta in P. rewrite P. reflexivity. }
    destruct (ls_ok_nth sizes _ _ q dl HLS Hq) as (Ln & Lw & Lrow). fold l in Ln, Lw, Lrow.
    assert (HX : length (act_at (m_layers n) x q) = nth q (k :: sizes) 0%nat).
    { pose proof (predict_layers_inv sizes (m_layers n) k x HLS) as I. destruct (ls_ok_nth sizes _ _ q dl I ltac:(rewrite predict_layers_len; exact Hq)) as (I1 & _).
      assert (IX : starts_one (nth q (k :: sizes) 0%nat) (l_x (nth q (fst (predict_layers (m_layers n) x)) dl))).
      { clear - I Hq. revert I Hq. rewrite <- (predict_layers_len (m_layers n) x). generalize (fst (predict_layers (m_layers n) x)). clear. revert q k.
        induction sizes as [|s sizes IH]; intros q k [|l ls] H Hq; cbn [ls_ok length] in *; try contradiction; [lia|].
        destruct H as (_ & _ & H3 & H4). destruct q as [|q]; [exact H3|]. exact (IH q s ls H4 ltac:(lia)). }
      pose proof (predict_layers_state sizes (m_layers n) k x q dl HLS Hx Hq) as P. cbv zeta in P. rewrite P in IX. cbn [l_x] in IX.
      apply starts_one_len in IX. cbn [length] in IX. lia. }
    exists (nth r (nth q del []) PrimFloat.zero), (n1 :: act_at (m_layers n) x q).
    assert (HR : length (node_w n q r) = (nth q (k :: sizes) 0 + 1)%nat) by (unfold node_w; fold l; rewrite Forall_forall in Lrow; apply Lrow, nth_In; exact Hr).
    split; [cbn [length]; lia|]. split.
    - unfold node_w at 1. rewrite EL, HW. 
      rewrite (nth_map2 _ _ _ r [] []) by (try exact Hr; unfold mscale, outer; rewrite !map_length; lia).
      unfold mscale, outer. rewrite map_map. rewrite (nth_map_in _ _ r PrimFloat.zero) by lia. unfold vscale. rewrite map_map. reflexivity.
    - rewrite HY. unfold node_f. fold l. set (Y := act_at (m_layers n) x (S q)) in *.
      unfold layer_error in HE. cbn [l_f l_y l_w] in HE.
      assert (LY : length Y = length (l_w l)) by (apply act_at_len; exact Hq).
      set (f := l_f l) in *.
      destruct (fst (from_next ls' del wold (minus d (forward n x)) dl (length (m_layers n)) q)) as [wv|wm];
        destruct (snd (from_next ls' del wold (minus d (forward n x)) dl (length (m_layers n)) q)) as [a|ev]; cbn [mul_val rbind] in HE; try discriminate HE.
      + unfold bc_mul in HE. destruct (bc_nth _ _ _ _ r PrimFloat.zero PrimFloat.zero HE) as (b & ->); [rewrite !map_length; lia|rewrite !map_length; lia|].
        rewrite map_map, (nth_map_in _ Y r PrimFloat.zero) by lia. exists a, b. reflexivity.
      + unfold bc_mul in HE at 1. destruct (bc nmul (map (act_der f) Y) ev) as [u|] eqn:EU; cbn [rbind] in HE; [|discriminate HE]. unfold bc_mul in HE.
        assert (LU : length u = length Y).
        { pose proof (bc_len _ _ _ _ EU) as B1. pose proof (bc_len _ _ _ _ HE) as B2. rewrite map_length in B1. rewrite Hlen in B2. lia. }
        destruct (bc_nth _ _ _ _ r PrimFloat.zero PrimFloat.zero HE) as (b & ->); [lia|lia|].
        destruct (bc_nth _ _ _ _ r PrimFloat.zero PrimFloat.zero EU) as (b' & ->); [rewrite map_length; lia|rewrite map_length; lia|].
        rewrite (nth_map_in _ Y r PrimFloat.zero) by lia. exists b', b. reflexivity.
      + destruct (vmdot _ ev wm) as [u|]; cbn [rbind] in HE; [|discriminate HE]. unfold bc_mul in HE.
        destruct (bc_nth _ _ _ _ r PrimFloat.zero PrimFloat.zero HE) as (b & ->); [rewrite map_length; lia|rewrite map_length; lia|].
        rewrite (nth_map_in _ Y r PrimFloat.zero) by lia. eexists _, b. reflexivity.
  Qed.

  Definition no_minus_zero (a : float) : Prop := Prim2SF a <> S754_zero true.
  Lemma add_zr_same a z : zr z -> no_minus_zero a -> PrimFloat.add a z = a.
  Proof.
    intros Hz Ha. destruct (add_zr_r a z Hz) as [E|(Z1 & Z2)]; [exact E|]. apply SF_inj. rewrite add_spec. unfold zr in Hz, Z2. unfold no_minus_zero in Ha.
    destruct (Prim2SF z) as [sz|s| |s m e]; try contradiction. destruct (Prim2SF a) as [sa|s| |s m e]; try contradiction.
    destruct sa; [congruence|]. destruct sz; reflexivity.
  Qed.
  Lemma step_rows (g : float -> float) : forall (u v : list float), length v = length u -> Forall fin (map2 PrimFloat.add u (map g v)) ->
    (forall a, fin (g a) -> zr (g a)) -> Forall2 eqz (map2 PrimFloat.add u (map g v)) u /\ (Forall no_minus_zero u -> map2 PrimFloat.add u (map g v) = u).
  Proof.
    induction u as [|a u IH]; intros [|b v] HL HF Hg; cbn [length map map2] in *; try lia; [split; [constructor|reflexivity]|].
    pose proof (Forall_inv HF) as F0. pose proof (Forall_inv_tail HF) as F1. destruct (add_fin _ _ F0) as (_ & FG). pose proof (Hg b FG) as Z.
    destruct (IH v ltac:(lia) F1 Hg) as (I1 & I2). split; [constructor; [apply add_zr_r; exact Z|exact I1]|].
    intros N. rewrite (add_zr_same _ _ Z (Forall_inv N)), (I2 (Forall_inv_tail N)). reflexivity.
  Qed.
  Lemma step_fin : forall (u v : list float), length v = length u -> Forall fin (map2 PrimFloat.add u v) -> Forall fin u.
  Proof.
    induction u as [|a u IH]; intros [|b v] HL HF; cbn [length map2] in *; try lia; constructor.
    - exact (proj1 (add_fin _ _ (Forall_inv HF))).
    - exact (IH v ltac:(lia) (Forall_inv_tail HF)).
  Qed.

  (** where the slope is zero, one learning step leaves the weights of the node alone, or makes one of them nan or infinite *)
  Lemma step_ok sizes k o n x d q r : net_ok sizes k o n -> length x = k -> vlen d o -> (q < length (m_layers n))%nat -> (r < length (l_w (nth q (m_layers n) dl)))%nat ->
    Forall fin (node_w (learn n (x, d)) q r) ->
    Forall fin (node_w n q r) /\
    (is_zero (act_der (node_f n q) (node_y n x q r)) -> Forall2 eqz (node_w (learn n (x, d)) q r) (node_w n q r) /\
    (Forall no_minus_zero (node_w n q r) -> node_w (learn n (x, d)) q r = node_w n q r)).
  Proof.
    intros HO Hx Hd Hq Hr HF. destruct (node_step sizes k o n x d q r HO Hx Hd Hq Hr) as (el & v & LV & EW & (s & t & EL)). rewrite EW in *.
    split; [apply (step_fin _ (map (fun a => PrimFloat.mul (l_mu (nth q (m_layers n) dl)) (PrimFloat.mul el a)) v)); [rewrite map_length; exact LV|exact HF]|].
    intros HZ. apply step_rows; [exact LV|exact HF|]. intros a FA.
    destruct (mul_round _ _ FA) as (Fmu & Fea & _). destruct (mul_round _ _ Fea) as (Fe & Fa & _). apply zr_spec in HZ.
    rewrite EL in Fe. destruct (mul_round _ _ Fe) as (Fs & Ft & _). destruct (mul_round _ _ Fs) as (_ & Fs' & _).
    apply mul_zr_r; [exact Fmu|]. apply mul_zr_l; [|exact Fa]. rewrite EL. apply mul_zr_l; [|exact Ft]. apply mul_zr_l; [exact HZ|exact Fs'].
  Qed.
  Theorem C96_step : forall sizes k o n x d q r, net_reach sizes k o n -> length x = k -> vlen d o ->
    (q < length sizes)%nat -> (r < nth q sizes 0)%nat ->
    is_zero (act_der (node_f n q) (node_y n x q r)) -> Forall fin (node_w (learn n (x, d)) q r) ->
    Forall2 (fun a b => a = b \/ is_zero a /\ is_zero b) (node_w (learn n (x, d)) q r) (node_w n q r) /\
    (Forall no_minus_zero (node_w n q r) -> node_w (learn n (x, d)) q r = node_w n q r).
  Proof.
    intros sizes k o n x d q r HR Hx Hd Hq Hr HZ HF. pose proof (net_reach_ok _ _ _ _ HR) as HO. pose proof HO as (_ & _ & _ & HLS & _).
    pose proof (ls_ok_len _ _ _ HLS) as HL. destruct (ls_ok_nth sizes _ _ q dl HLS ltac:(lia)) as (Ln & Lw & _). change (nth (S q) (k :: sizes) 0%nat) with (nth q sizes 0%nat) in Lw.
    destruct (step_ok sizes k o n x d q r HO Hx Hd ltac:(lia) ltac:(lia) HF) as (_ & H). destruct (H HZ) as (H1 & H2). split; [|exact H2].
    clear - H1. induction H1 as [|a b u v Hab _ IH]; constructor; [|exact IH]. destruct Hab as [E|(Z1 & Z2)]; [left; exact E|right]. split; apply zr_spec; assumption.
  Qed.

  Lemma node_y0 sizes k o n x r : net_ok sizes k o n -> length x = k -> (r < nth 0 sizes 0)%nat ->
    node_y n x 0 r = act (node_f n 0) (nsum (map2 nmul (node_w n 0 r) (n1 :: x))).
  Proof.
    intros HO Hx Hr. pose proof HO as (_ & _ & HN & HLS & _). unfold node_y. rewrite predict_layers_of.
    pose proof (ls_ok_len _ _ _ HLS) as HL. assert (Hq : (0 < length (m_layers n))%nat) by (destruct sizes; [contradiction|cbn [length] in HL; lia]).
    pose proof (predict_layers_state sizes (m_layers n) k x 0 dl HLS Hx Hq) as P. cbv zeta in P. rewrite P. cbn [l_y].
    destruct (ls_ok_nth sizes _ _ 0%nat dl HLS Hq) as (_ & Lw & _). change (nth 1 (k :: sizes) 0%nat) with (nth 0 sizes 0%nat) in Lw.
    unfold node_f, node_w. destruct (m_layers n) as [|l ls]; [cbn [length] in Hq; lia|]. cbn [nth] in *. unfold act_at. cbn [firstn map layer_par hidden].
    rewrite (nth_map_in _ _ r []) by lia. reflexivity.
  Qed.
  Lemma statics_f (n n' : net) q : statics n = statics n' -> node_f n q = node_f n' q.
  Proof.
    unfold statics, node_f. intros E. injection E as _ E. assert (E2 : map (@l_f _) (m_layers n) = map (@l_f _) (m_layers n')).
    { pose proof (f_equal (map snd) E) as E3. rewrite !map_map in E3. exact E3. }
    change Sigmoid with (l_f dl) in *. rewrite <- (map_nth (@l_f _)), E2, map_nth. reflexivity.
  Qed.
  Lemma learn_f n s q : node_f (learn n s) q = node_f n q.
  Proof. apply statics_f. unfold learn. rewrite net_update_statics. apply params_statics, net_predict_params. Qed.
  Lemma learned_dead sizes k o r : (r < nth 0 sizes 0)%nat -> forall l n, net_ok sizes k o n -> Forall (sample_ok k o) l -> Forall no_minus_zero (node_w n 0 r) ->
    Forall (fun s => is_zero (act_der (node_f n 0) (node_y n (fst s) 0 r))) l -> Forall fin (node_w (learned n l) 0 r) ->
    Forall fin (node_w n 0 r) /\ node_w (learned n l) 0 r = node_w n 0 r /\ node_f (learned n l) 0 = node_f n 0.
  Proof.
    intros Hr. 
    assert (HB : forall l n, net_ok sizes k o n -> Forall (sample_ok k o) l -> Forall fin (node_w (learned n l) 0 r) -> Forall fin (node_w n 0 r)).
    { induction l as [|[x d] l IH]; intros n HO HS HF; [exact HF|]. unfold learned in *. cbn [fold_left] in HF.
      destruct (Forall_inv HS) as (Hx & Hd). cbn [fst snd] in Hx, Hd. pose proof HO as (_ & _ & HN & HLS & _). pose proof (ls_ok_len _ _ _ HLS) as HL.
      assert (Hq : (0 < length (m_layers n))%nat) by (destruct sizes; [contradiction|cbn [length] in HL; lia]).
      destruct (ls_ok_nth sizes _ _ 0%nat dl HLS Hq) as (_ & Lw & _). change (nth 1 (k :: sizes) 0%nat) with (nth 0 sizes 0%nat) in Lw.
      apply (step_ok sizes k o n x d 0 r HO Hx Hd Hq ltac:(lia)). apply IH; [|exact (Forall_inv_tail HS)|exact HF].
      apply (learned_ok sizes k o [(x, d)] n HO). }
    induction l as [|[x d] l IH]; intros n HO HS HM HZ HF; [split; [exact HF|split; reflexivity]|].
    split; [exact (HB _ n HO HS HF)|]. unfold learned in *. cbn [fold_left] in *. destruct (Forall_inv HS) as (Hx & Hd). cbn [fst snd] in Hx, Hd.
    pose proof HO as (_ & _ & HN & HLS & _). pose proof (ls_ok_len _ _ _ HLS) as HL.
    assert (Hq : (0 < length (m_layers n))%nat) by (destruct sizes; [contradiction|cbn [length] in HL; lia]).
    destruct (ls_ok_nth sizes _ _ 0%nat dl HLS Hq) as (_ & Lw & _). change (nth 1 (k :: sizes) 0%nat) with (nth 0 sizes 0%nat) in Lw.
    pose proof (learned_ok sizes k o [(x, d)] n HO) as HO'. unfold learned in HO'. cbn [fold_left] in HO'.
    pose proof (HB l (learn n (x, d)) HO' (Forall_inv_tail HS) HF) as F1.
    destruct (step_ok sizes k o n x d 0 r HO Hx Hd Hq ltac:(lia) F1) as (_ & H). destruct (H (Forall_inv HZ)) as (_ & E). specialize (E HM).
    destruct (IH (learn n (x, d)) HO' (Forall_inv_tail HS)) as (_ & I1 & I2).
    - rewrite E. exact HM.
    - rewrite Forall_forall in *. intros s Hs. specialize (HZ s (or_intror Hs)). cbv beta in *.
      destruct (HS s (or_intror Hs)) as (Hxs & _). rewrite (node_y0 sizes k o) in HZ |- * by auto. rewrite learn_f, E. exact HZ.
    - exact HF.
    - rewrite I1, I2, E, learn_f. split; reflexivity.
  Qed.

  (** a node of the first hidden layer that is saturated on every row of the training data comes out of the training, however many
      epochs and in whatever order, with exactly the weights it went in with - unless one of them became nan or infinite *)
  Theorem C96_dead_node : forall sizes k o n x d ds epochs shuffle r,
    net_reach sizes k o n -> rows_of k x -> x <> [] -> fits o (length x) d ds ->
    (forall idx, shuffle = Some idx -> Permutation idx (seq 0 (length x))) ->
    (r < nth 0 sizes 0)%nat -> Forall no_minus_zero (node_w n 0 r) ->
    Forall (fun u => is_zero (act_der (node_f n 0) (node_y n u 0 r))) x ->
    let n' := fst (net_train x d epochs shuffle n) in
    Forall fin (node_w n' 0 r) ->
    node_w n' 0 r = node_w n 0 r /\ forall u, length u = k -> node_y n' u 0 r = node_y n u 0 r.
  Proof.
    intros sizes k o n x d ds ep sh r HR Hx Hne Hf Hs Hr HM HZ n' HF.
    destruct (C47_train sizes k o n x d ds ep sh HR Hx Hne Hf Hs) as (data & HP & _ & e & mse & ET & _). pose proof (net_reach_ok _ _ _ _ HR) as HO.
    unfold n' in *. rewrite ET in *. cbn [fst] in *. destruct (check_ok sizes k o n x d ds HO Hx Hne Hf) as (_ & _ & H3).
    assert (HD : Forall (fun s => sample_ok k o s /\ is_zero (act_der (node_f n 0) (node_y n (fst s) 0 r))) data).
    { eapply Permutation_Forall; [apply Permutation_sym; exact HP|]. apply Forall_forall. intros [a b] Hab.
      pose proof (in_combine_l _ _ _ _ Hab) as Ha. pose proof (in_combine_r _ _ _ _ Hab) as Hb.
      unfold rows_of in Hx. rewrite Forall_forall in Hx, H3, HZ. split; [split; cbn [fst snd]; auto|cbn [fst]; auto]. }
    assert (HS : Forall (fun s => sample_ok k o s /\ is_zero (act_der (node_f n 0) (node_y n (fst s) 0 r))) (stream ep data)).
    { clear - HD. unfold stream. induction ep as [|ep IH]; cbn [repeat concat]; [constructor|]. apply Forall_app. split; assumption. }
    assert (HS1 : Forall (sample_ok k o) (stream ep data)) by (eapply Forall_impl; [|exact HS]; intros s (H & _); exact H).
    assert (HS2 : Forall (fun s => is_zero (act_der (node_f n 0) (node_y n (fst s) 0 r))) (stream ep data)) by (eapply Forall_impl; [|exact HS]; intros s (_ & H); exact H).
    destruct (learned_dead sizes k o r Hr _ n HO HS1 HM HS2 HF) as (_ & E1 & E2). split; [exact E1|].
    intros u Hu. rewrite (node_y0 sizes k o n u r HO Hu Hr). rewrite (node_y0 sizes k o _ u r (learned_ok sizes k o _ n HO) Hu Hr), E1, E2. reflexivity.
  Qed.
End C96.

(** ** A concrete case: a 2 - 2 - 1 network; node 1 of the hidden layer has the weights 0, 100, 0; exp is replaced by a two-step function
    which meets the assumptions of both theorems about the activations *)
Definition half : float := PrimFloat.div PrimFloat.one PrimFloat.two.
Definition step_exp (a : float) : float := if PrimFloat.leb a (PrimFloat.opp half) then PrimFloat.zero else PrimFloat.one.
#[local] Notation en := (FNumD no_solve (fun a => a) step_exp (fun a _ => a) plain_sum plain_dot).
Definition hundred : float := f_of_Z 100.
Definition erng1 (s : float) (k : nat) : list float := repeat tenth k.
Definition erng (i : nat) (s : float) (r c : nat) : list (list float) :=
  match r, c with 2%nat, 3%nat => [[tenth; tenth; tenth]; [PrimFloat.zero; hundred; PrimFloat.zero]] | _, _ => repeat (repeat tenth c) r end.
Lemma erngs : rngs_ok erng1 erng.
Proof.
  split; [intros; apply repeat_length|]. intros i s r c. unfold erng.
  assert (H : length (repeat (repeat tenth c) r) = r /\ Forall (fun v => length v = c) (repeat (repeat tenth c) r)).
  { split; [apply repeat_length|]. apply Forall_forall. intros row H. apply repeat_spec in H. subst. apply repeat_length. }
  destruct r as [|[|[|r]]]; try exact H. destruct c as [|[|[|[|c]]]]; try exact H. split; [reflexivity|]. repeat constructor.
Qed.
Definition enet : net float := match @new_net _ en erng1 erng [2%nat] 2 1 Sigmoid (MuNum tenth) with Ok n => n | Err _ => mkNet tenth 0 0 (W1 []) [] (VNum tenth) [] end.
Lemma enet_new : @new_net _ en erng1 erng [2%nat] 2 1 Sigmoid (MuNum tenth) = Ok enet.
Proof. vm_compute. reflexivity. Qed.
Lemma enet_reach : @net_reach _ en [2%nat] 2 1 enet.
Proof. eapply reach_net; [apply erngs|apply enet_new]. Qed.
Definition ex_x : list (list float) := [[PrimFloat.one; tenth]; [PrimFloat.two; tenth]; [hundred; PrimFloat.zero]].
Definition ex_d : darg float := D1 [PrimFloat.one; PrimFloat.two; tenth].

Example C96_hypotheses :
  (forall x, not_nan x -> nonneg (step_exp x)) /\
  (forall x, fin x -> val x <= 0 -> fin (step_exp x) /\ 0 <= val (step_exp x) <= 2 * Rtrigo_def.exp (val x)) /\
  @net_reach _ en [2%nat] 2 1 enet /\ rows_of 2 ex_x /\ @fits _ 1 (length ex_x) ex_d [VNum PrimFloat.one; VNum PrimFloat.two; VNum tenth] /\
  Forall no_minus_zero (node_w enet 0 1) /\
  Forall (fun u => is_zero (@act_der _ en (node_f enet 0) (node_y no_solve (fun a => a) step_exp (fun a _ => a) plain_sum plain_dot enet u 0 1))) ex_x /\
  let n' := fst (@net_train _ en ex_x ex_d 5 None enet) in
  Forall fin (node_w n' 0 1) /\
  (* the node comes out as it went in; the other node and the output weights have been trained *)
  node_w n' 0 1 = node_w enet 0 1 /\ node_w n' 0 0 <> node_w enet 0 0 /\ m_w n' <> m_w enet.
Proof.
  split; [|split; [|split; [exact enet_reach|split; [repeat constructor|split; [repeat split; reflexivity|split; [|split]]]]]].
  - intros x _. unfold step_exp. destruct (PrimFloat.leb _ _); vm_compute; reflexivity.
  - intros x Fx Hx. unfold step_exp. destruct (PrimFloat.leb x (PrimFloat.opp half)) eqn:E.
    + split; [apply finb_ok; vm_compute; reflexivity|]. rewrite zero_val. pose proof (exp_pos (val x)). lra.
    + split; [apply fin_one|]. rewrite one_val.
      assert (HV : - / 2 < val x).
      { apply Rnot_le_lt. intros HC. assert (VH : val (PrimFloat.opp half) = - / 2). { rewrite (ldexp_val _ (-1 # 2)) by (vm_compute; reflexivity). unfold Q2R. cbn. lra. }
        assert (FH : fin (PrimFloat.opp half)) by (apply finb_ok; vm_compute; reflexivity).
        rewrite Flocq.IEEE754.PrimFloat.leb_equiv, Bleb_correct in E by (apply fin_B; assumption). rewrite val_B in HC, VH.
        unfold Rle_bool in E. rewrite VH in E. destruct (Rcompare_spec (B2R (bin x)) (- / 2)); [discriminate|discriminate|lra]. }
      assert (HE : / 2 <= Rtrigo_def.exp (val x)).
      { apply Rle_trans with (1 + val x); [lra|]. destruct (Req_dec (val x) 0) as [->|Hn]; [rewrite exp_0; lra|]. left. apply exp_ineq1. exact Hn. }
      lra.
  - repeat constructor; vm_compute; congruence.
  - repeat constructor; vm_compute; reflexivity.
  - cbv zeta.
    assert (HF : Forall fin (node_w (fst (@net_train _ en ex_x ex_d 5 None enet)) 0 1)) by (apply finb_all; vm_compute; reflexivity).
    split; [exact HF|].
    split; [vm_compute; reflexivity|]. split; intros H.
    + apply (f_equal (fun l => PrimFloat.eqb (nth 0 l PrimFloat.zero) tenth)) in H. vm_compute in H. discriminate.
    + apply (f_equal (fun w => match w with W1 l => PrimFloat.eqb (nth 0 l PrimFloat.zero) tenth | _ => false end)) in H. vm_compute in H. discriminate.
Qed.
