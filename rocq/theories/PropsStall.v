(** C91: in binary64 a filter stops learning, for good, once its updates fall below the resolution of its weights. *)
From Coq Require Import ZArith QArith Qreals Reals Lra Psatz Permutation Uint63 FloatOps FloatAxioms SpecFloat.
From Coq Require PrimFloat.
From Flocq Require Import Core BinarySingleNaN Plus_error.
From Flocq Require IEEE754.PrimFloat.
From Verif Require Import Py Num NumF Numpy Filters Registry Spec StructProofs RunProofs Reach Steps RMat RVec RFilter PropsStability PropsTracking FloatErr PropsRound PropsRoundRun PropsNoOverflow.
Open Scope R_scope.
#[local] Existing Instance Flocq.IEEE754.PrimFloat.Hprec.
#[local] Existing Instance Flocq.IEEE754.PrimFloat.Hmax.
#[local] Notation bin := Flocq.IEEE754.PrimFloat.Prim2B.
#[local] Notation fexp64 := (SpecFloat.fexp FloatOps.prec FloatOps.emax).

(** ** Specification *)
(** b is too small to change a: 2^-55 of it or less *)
Definition too_small (a b : float) : Prop := fin a /\ fin b /\ val a <> 0 /\ Rabs (val b) <= / 2 ^ 55 * Rabs (val a).

Lemma nth_firstn_lt {A} (l : list A) k j a : (j < k)%nat -> nth j (firstn k l) a = nth j l a.
Proof. revert k j. induction l as [|b l IH]; intros [|k] [|j] H; try lia; try reflexivity. cbn. apply IH. lia. Qed.

(** ** Adding too little *)
Lemma gap_pos u : generic_format radix2 fexp64 u -> 0 < u ->
  u + / 2 ^ 54 * u < succ radix2 fexp64 u /\ pred radix2 fexp64 u < u - / 2 ^ 54 * u.
Proof.
  intros F Hu. assert (V : Valid_exp fexp64) by (apply FLT_exp_valid; reflexivity).
  assert (B53 : bpow radix2 (- FloatOps.prec) = / 2 ^ 53) by (change (- FloatOps.prec)%Z with (-53)%Z; simpl; lra).
  assert (P : 0 < / 2 ^ 53) by (apply Rinv_0_lt_compat, pow_lt; lra). assert (E54 : / 2 ^ 54 = / 2 ^ 53 * / 2) by (simpl; lra).
  split.
  - rewrite succ_eq_pos by lra. apply Rplus_lt_compat_l.
    pose proof (ulp_FLT_gt radix2 (SpecFloat.emin FloatOps.prec FloatOps.emax) FloatOps.prec u) as H. rewrite B53, Rabs_pos_eq in H by lra.
    change (FLT_exp (SpecFloat.emin FloatOps.prec FloatOps.emax) FloatOps.prec) with fexp64 in H. rewrite E54. nra.
  - pose proof (pred_plus_ulp radix2 fexp64 u Hu F) as E. set (p := pred radix2 fexp64 u) in *.
    assert (Hp : 0 <= p) by (apply pred_ge_0; auto).
    pose proof (ulp_FLT_gt radix2 (SpecFloat.emin FloatOps.prec FloatOps.emax) FloatOps.prec p) as H. rewrite B53, Rabs_pos_eq in H by lra.
    change (FLT_exp (SpecFloat.emin FloatOps.prec FloatOps.emax) FloatOps.prec) with fexp64 in H. set (g := ulp radix2 fexp64 p) in *.
    assert (P1 : / 2 ^ 53 < 1) by (rewrite <- Rinv_1; apply Rinv_lt_contravar; [rewrite Rmult_1_l; apply pow_lt; lra|apply Rlt_pow_R1; [lra|lia]]).
    rewrite E54. assert (p = u - g) by lra. nra.
Qed.
Lemma gap u : generic_format radix2 fexp64 u -> u <> 0 ->
  u + / 2 ^ 54 * Rabs u < succ radix2 fexp64 u /\ pred radix2 fexp64 u < u - / 2 ^ 54 * Rabs u.
Proof.
  intros F Hu. destruct (Rlt_le_dec 0 u) as [H|H].
  - rewrite Rabs_pos_eq by lra. apply gap_pos; auto.
  - rewrite Rabs_left1 by lra. destruct (gap_pos (- u)) as (H1 & H2); [apply generic_format_opp; exact F|lra|].
    rewrite succ_opp in H1. rewrite pred_opp in H2. split; lra.
Qed.
Lemma add_small a b : too_small a b -> PrimFloat.add a b = a.
Proof.
  intros (Fa & Fb & Ha & H). rewrite fin_B in *. rewrite !val_B in *.
  assert (V : Valid_exp fexp64) by (apply FLT_exp_valid; reflexivity).
  set (u := B2R (bin a)) in *. set (v := B2R (bin b)) in *.
  assert (F : generic_format radix2 fexp64 u) by apply generic_format_B2R.
  destruct (gap u F Ha) as (G1 & G2). assert (E55 : / 2 ^ 55 = / 2 ^ 54 * / 2) by (simpl; lra).
  assert (Hv : - (/ 2 ^ 54 * / 2 * Rabs u) <= v <= / 2 ^ 54 * / 2 * Rabs u) by (rewrite <- E55; revert H; unfold Rabs at 1; destruct (Rcase_abs v); lra).
  assert (R : rnd (u + v) = u).
  { apply Rle_antisym.
    - apply round_N_le_midp; auto. lra.
    - apply round_N_ge_midp; auto. lra. }
  pose proof (Bplus_correct FloatOps.prec FloatOps.emax Flocq.IEEE754.PrimFloat.Hprec Flocq.IEEE754.PrimFloat.Hmax mode_NE (bin a) (bin b) Fa Fb) as C.
  fold u v in C. rewrite R in C. rewrite Rlt_bool_true in C by (apply abs_B2R_lt_emax). destruct C as (C1 & C2 & _).
  apply Flocq.IEEE754.PrimFloat.Prim2B_inj. rewrite Flocq.IEEE754.PrimFloat.add_equiv.
  assert (S : forall z : binary_float FloatOps.prec FloatOps.emax, is_finite z = true -> B2R z <> 0 -> is_finite_strict z = true).
  { intros z Hz Hn. destruct z; cbn in *; congruence. }
  apply B2R_inj; [apply S; [exact C2|rewrite C1; exact Ha]|apply S; [exact Fa|exact Ha]|exact C1].
Qed.
Lemma add_all_small (w dw : list float) : length dw = length w ->
  (forall i, (i < length w)%nat -> too_small (nth i w PrimFloat.zero) (nth i dw PrimFloat.zero)) -> map2 PrimFloat.add w dw = w.
Proof.
  revert dw. induction w as [|a w IH]; intros [|b dw] L H; try discriminate; [reflexivity|]. cbn [map2].
  rewrite (add_small a b (H 0%nat ltac:(cbn; lia))). f_equal. apply IH; [injection L; auto|]. intros i Hi. apply (H (S i)). cbn. lia.
Qed.

Section C91.
  Variable solve : list (list float) -> list (list float) -> option (list (list float)).
  Variables (tanh exp : float -> float) (power : float -> float -> float) (sum : list float -> float) (dot : list float -> list float -> float).
  #[local] Hint Extern 0 (Num float) => exact (FNumD solve tanh exp power sum dot) : typeclass_instances.

  (** the sample (d, x) is below the resolution of the filter: its learning rule keeps no state and proposes changes that are
      all too small for the weights *)
  Definition unnoticed (o : obj float) (d : float) (x : list float) : Prop :=
    exists dw, learning_rule (PrimFloat.sub d (dot (o_w o) x)) x o = (o, Ok dw) /\ length dw = length (o_w o) /\
      forall i, (i < length (o_w o))%nat -> too_small (nth i (o_w o) PrimFloat.zero) (nth i dw PrimFloat.zero).

  (** *** C91.  An unnoticed sample leaves the filter exactly as it was. *)
  Theorem C91_unnoticed : forall n (o : obj float) d x, reachable n o -> is_AP o = false -> is_OCNLMS o = false -> length x = n ->
    unnoticed o d x -> adapt d x o = (o, Ok tt).
  Proof.
    intros n o d x Hr Hap Hoc Lx (dw & E & L & H). apply reachable_wf in Hr. pose proof Hr as (Lw & _).
    rewrite (adapt_plain n o d x o dw Hr Lx Hap Hoc E eq_refl) by congruence. f_equal.
    change (@nadd float _) with PrimFloat.add. rewrite (add_all_small _ _ L H). destruct o; reflexivity.
  Qed.

  (** Any number of unnoticed samples: run returns the errors of the fixed weights, and the weights are those it started with. *)
  Theorem C91_for_good : forall n (o : obj float) d x, reachable n o -> is_AP o = false -> is_OCNLMS o = false ->
    rows_of n x -> length d = length x -> x <> [] ->
    (forall k, (k < length x)%nat -> unnoticed o (nth k d PrimFloat.zero) (nth k x [])) ->
    exists o' y e w, run d x o = (o', Ok (y, e, w)) /\ o_w o' = o_w o /\
      forall k, (k < length x)%nat -> nth k w [] = o_w o /\ nth k y PrimFloat.zero = dot (o_w o) (nth k x []) /\
        nth k e PrimFloat.zero = PrimFloat.sub (nth k d PrimFloat.zero) (dot (o_w o) (nth k x [])).
  Proof.
    intros n o d x Hr Hap Hoc Hx Hl Hne HU.
    assert (G : forall d x, length d = length x -> rows_of n x -> (forall k, (k < length x)%nat -> unnoticed o (nth k d PrimFloat.zero) (nth k x [])) ->
      adapt_all d x o = (o, Ok tt)).
    { clear d x Hx Hl Hne HU. induction d as [|d0 d IH]; intros [|x0 x] Hl Hx HU; try discriminate; [reflexivity|].
      cbn [adapt_all]. unfold bind. rewrite (C91_unnoticed n o d0 x0 Hr Hap Hoc (Forall_inv Hx) (HU 0%nat ltac:(cbn; lia))).
      apply IH; [injection Hl; auto|exact (Forall_inv_tail Hx)|]. intros k Hk. apply (HU (S k)). cbn. lia. }
    pose proof (reachable_wf _ _ Hr) as Hwf. pose proof (G d x Hl Hx HU) as HA.
    destruct (run_eq n o d x Hwf Hx Hl Hne) as (h & E & _). rewrite HA in E. cbn [fst snd rmap] in E.
    do 4 eexists. split; [exact E|]. split; [reflexivity|]. intros k Hk.
    destruct (run_steps n o _ d x _ _ _ k Hwf Hx E Hk) as (s & s' & Hs & _ & _ & Es & _ & _ & _ & _ & Hw & Hy & He & Lx).
    assert (Eo : s = o).
    { rewrite Es. unfold state_after. rewrite G; [reflexivity|rewrite !firstn_length; lia|apply firstn_rows; exact Hx|].
      intros j Hj. rewrite firstn_length in Hj. rewrite !nth_firstn_lt by lia. apply HU. lia. }
    rewrite Eo in Hw, Hy. unfold pred_out in Hy. rewrite Hap, predict_plain in Hy by exact Hoc. destruct Hwf as (Lw & _). rewrite vdot_ok in Hy by congruence. cbn [snd] in Hy.
    split; [symmetry; exact Hw|]. split; [exact Hy|]. etransitivity; [exact He|]. rewrite Hy. reflexivity.
  Qed.

  (** LMS: a sample goes unnoticed as soon as |mu x_i e| is at most 2^-56 |w_i| for every i (no weight below 2^-600, no number
      above 2^300) *)
  Theorem C91_LMS : forall n (o : obj float) d x, reachable n o -> o_ext o = XLMS -> length x = n ->
    let e := PrimFloat.sub d (dot (o_w o) x) in
    fin (o_mu o) -> Forall fin (o_w o) -> Forall fin x -> fin e ->
    Rabs (val (o_mu o)) <= 2 ^ 300 -> Rabs (val e) <= 2 ^ 300 ->
    (forall i, (i < n)%nat -> let wi := val (nth i (o_w o) PrimFloat.zero) in let xi := val (nth i x PrimFloat.zero) in
      / 2 ^ 600 <= Rabs wi /\ Rabs xi <= 2 ^ 300 /\ Rabs (val (o_mu o) * xi * val e) <= / 2 ^ 56 * Rabs wi) ->
    unnoticed o d x.
  Proof.
    intros n o d x Hr E Lx e Fm Fw Fx Fe Hm He H. pose proof (reachable_wf _ _ Hr) as (Lw & _).
    exists (map (fun a => PrimFloat.mul (PrimFloat.mul (o_mu o) a) e) x). split; [|split].
    - unfold learning_rule, bind, get. rewrite E. reflexivity.
    - rewrite map_length. congruence.
    - intros i Hi. rewrite Lw in Hi. destruct (H i Hi) as (Hw & Hx & Hs). cbv zeta in *.
      rewrite (nth_indep (map (fun a => PrimFloat.mul (PrimFloat.mul (o_mu o) a) e) x) PrimFloat.zero (PrimFloat.mul (PrimFloat.mul (o_mu o) PrimFloat.zero) e)) by (rewrite map_length; lia).
      rewrite (map_nth (fun a => PrimFloat.mul (PrimFloat.mul (o_mu o) a) e) x PrimFloat.zero i).
      assert (Fxi : fin (nth i x PrimFloat.zero)) by (rewrite Forall_forall in Fx; apply Fx, nth_In; lia).
      assert (Fwi : fin (nth i (o_w o) PrimFloat.zero)) by (rewrite Forall_forall in Fw; apply Fw, nth_In; lia).
      set (xf := nth i x PrimFloat.zero) in *. set (wf := nth i (o_w o) PrimFloat.zero) in *. pose proof uro_pos as Hu. pose proof eta_pos as Ht.
      assert (U : uro <= / 8). { eapply Rle_trans; [apply uro_small|]. replace (/ 8) with (/ 2 ^ 3) by lra. apply pw_le. leb. }
      assert (P300 : 1 <= 2 ^ 300) by (apply pow_R1_Rle; lra).
      assert (B1 : Rabs (val (o_mu o) * val xf) <= 2 ^ 600).
      { rewrite Rabs_mult. change 600%nat with (300 + 300)%nat. rewrite pow_add. apply Rmult_le_compat; try apply Rabs_pos; auto. }
      assert (F1 : fin (PrimFloat.mul (o_mu o) xf)) by (apply mul_ok; auto; eapply Rle_trans; [exact B1|apply Rle_pow; [lra|leb]]).
      assert (ES : eta * 2 ^ 302 <= / 2 ^ 60 * / 2 ^ 600).
      { apply Rle_trans with (/ 2 ^ 1000 * 2 ^ 302); [apply Rmult_le_compat_r; [left; apply pow_lt; lra|apply eta_small]|].
        rewrite Rmult_comm, pw by leb. rewrite <- Rinv_mult, <- pow_add. apply pw_le. leb. }
      assert (W : / 2 ^ 60 * / 2 ^ 600 <= / 2 ^ 60 * Rabs (val wf)) by (apply Rmult_le_compat_l; [left; apply Rinv_0_lt_compat, pow_lt; lra|exact Hw]).
      assert (E302 : 2 ^ 302 = 4 * 2 ^ 300) by (replace 4 with (2 ^ 2) by lra; rewrite <- pow_add; reflexivity).
      assert (Ee : eta * ((1 + uro) * Rabs (val e) + 1) <= eta * 2 ^ 302).
      { apply Rmult_le_compat_l; [lra|]. pose proof (Rabs_pos (val e)). assert ((1 + uro) * Rabs (val e) <= 2 * 2 ^ 300) by (apply Rmult_le_compat; lra). lra. }
      set (p := Rabs (val (o_mu o) * val xf * val e)) in *. assert (Hp : 0 <= p) by apply Rabs_pos.
      assert (E56 : / 2 ^ 60 = / 16 * / 2 ^ 56) by (simpl; lra). assert (E55 : / 2 ^ 55 = 2 * / 2 ^ 56) by (simpl; lra).
      assert (W0 : 0 <= / 2 ^ 56 * Rabs (val wf)) by (apply Rmult_le_pos; [left; apply Rinv_0_lt_compat, pow_lt; lra|apply Rabs_pos]).
      (* the float product, bounded without assuming it is finite *)
      assert (B2 : Rabs (val (PrimFloat.mul (o_mu o) xf) * val e) <= 2 ^ 990).
      { destruct (mul_err _ _ F1) as (dl & h & Hdl & Hh & ->).
        assert (Hq : Rabs (1 + dl) <= 2) by (eapply Rle_trans; [apply Rabs_triang|]; rewrite Rabs_R1; lra).
        rewrite Rabs_mult. apply Rle_trans with (2 ^ 602 * 2 ^ 300); [|rewrite <- pow_add; apply Rle_pow; [lra|leb]].
        apply Rmult_le_compat; try apply Rabs_pos; auto. eapply Rle_trans; [apply Rabs_triang|]. rewrite Rabs_mult.
        assert (Rabs (val (o_mu o) * val xf) * Rabs (1 + dl) <= 2 ^ 600 * 2) by (apply Rmult_le_compat; try apply Rabs_pos; auto).
        assert (eta <= 1). { eapply Rle_trans; [apply eta_small|]. rewrite <- Rinv_1. apply Rinv_le_contravar; [lra|apply pow_R1_Rle; lra]. }
        assert (1 <= 2 ^ 600) by (apply pow_R1_Rle; lra). replace (2 ^ 602) with (4 * 2 ^ 600) by (replace 4 with (2 ^ 2) by lra; rewrite <- pow_add; reflexivity). lra. }
      assert (F2 : fin (PrimFloat.mul (PrimFloat.mul (o_mu o) xf) e)) by (apply mul_ok; auto; eapply Rle_trans; [exact B2|apply Rle_pow; [lra|leb]]).
      destruct (two_mul _ _ _ F2) as (_ & _ & _ & A). fold p in A.
      assert (Hc2 : (1 + uro) ^ 2 - 1 <= / 2) by nra.
      assert (A2 : ((1 + uro) ^ 2 - 1) * p <= / 2 * p) by (apply Rmult_le_compat_r; auto).
      split; [exact Fwi|]. split; [exact F2|]. split.
      { intros Z. rewrite Z, Rabs_R0 in Hw. assert (0 < / 2 ^ 600) by (apply Rinv_0_lt_compat, pow_lt; lra). lra. }
      set (z := val (PrimFloat.mul (PrimFloat.mul (o_mu o) xf) e)) in *.
      assert (Hz : Rabs z <= p + (/ 2 * p + eta * 2 ^ 302)).
      { replace z with (val (o_mu o) * val xf * val e + (z - val (o_mu o) * val xf * val e)) by ring. eapply Rle_trans; [apply Rabs_triang|]. fold p. lra. }
      rewrite E56 in *. lra.
  Qed.
End C91.

(** ** A case where this happens, against exact arithmetic *)
(** One tap, w = [1], input 1 for ever, target 1 + 2^-15, mu = 2^-41. *)
Definition stall_num : Num float := FNumD no_solve (fun a => a) (fun a => a) (fun a _ => a) plain_sum plain_dot.
Definition stall_mu : float := FloatOps.Z.ldexp PrimFloat.one (-41).
Definition stall_err : float := FloatOps.Z.ldexp PrimFloat.one (-15).
Definition stall_target : float := PrimFloat.add PrimFloat.one stall_err.
Definition stall_kw {T} (w mu : T) : kwargs T := mkKw (Some 1%Z) (Some mu) (Some (WVec [w])) None None None None None None None None false.
Definition stall_filter {T} (w mu : T) : obj T := mkObj [w] 1 mu None XLMS.
Lemma stall_reachable : @reachable _ stall_num 1 (stall_filter PrimFloat.one stall_mu).
Proof.
  apply (@reach_new _ stall_num 1 (fun k => repeat PrimFloat.zero k) KLMS (stall_kw PrimFloat.one stall_mu)); [intros k; apply repeat_length|split; discriminate|reflexivity|].
  vm_compute. reflexivity.
Qed.

Lemma val_stall : val stall_mu = / 2 ^ 41 /\ val stall_err = / 2 ^ 15 /\ val stall_target = 1 + / 2 ^ 15 /\ val PrimFloat.one = 1.
Proof.
  assert (A : forall f m k, Prim2SF f = S754_finite false m (- Z.of_nat k) -> val f = IZR (Zpos m) * / 2 ^ k).
  { intros f m k H. unfold val. rewrite H. rewrite Rmult_1_l.
    rewrite powerRZ_neg', <- pow_powerRZ. reflexivity. }
  assert (P52 : IZR 4503599627370496 = 2 ^ 52) by (symmetry; exact (pow_IZR 2 52)).
  assert (P : forall k, 2 ^ k <> 0) by (intros; apply pow_nonzero; lra).
  split; [|split; [|split]].
  - rewrite (A stall_mu 4503599627370496%positive 93%nat) by (vm_compute; reflexivity). rewrite P52. change 93%nat with (52 + 41)%nat. rewrite pow_add. field; try split; try apply P.
  - rewrite (A stall_err 4503599627370496%positive 67%nat) by (vm_compute; reflexivity). rewrite P52. change 67%nat with (52 + 15)%nat. rewrite pow_add. field; try split; try apply P.
  - rewrite (A stall_target 4503737066323968%positive 52%nat) by (vm_compute; reflexivity).
    replace (IZR 4503737066323968) with (2 ^ 52 + 2 ^ 37). 2: { replace (2 ^ 52) with (IZR (2 ^ 52)) by (symmetry; exact (pow_IZR 2 52)). replace (2 ^ 37) with (IZR (2 ^ 37)) by (symmetry; exact (pow_IZR 2 37)). rewrite <- plus_IZR. reflexivity. }
    replace (2 ^ 52) with (2 ^ 37 * 2 ^ 15) by (rewrite <- pow_add; reflexivity). field; try split; try apply P.
  - rewrite (A PrimFloat.one 4503599627370496%positive 52%nat) by (vm_compute; reflexivity). rewrite P52. field.
Qed.

Lemma stall_unnoticed : @unnoticed no_solve (fun a => a) (fun a => a) (fun a _ => a) plain_sum plain_dot (stall_filter PrimFloat.one stall_mu) stall_target [PrimFloat.one].
Proof.
  destruct val_stall as (V1 & V2 & V3 & V4).
  apply (C91_LMS _ _ _ _ _ _ 1 (stall_filter PrimFloat.one stall_mu) stall_target [PrimFloat.one]).
  - exact stall_reachable.
  - reflexivity.
  - reflexivity.
  - apply finb_ok; vm_compute; reflexivity.
  - apply finb_all; vm_compute; reflexivity.
  - apply finb_all; vm_compute; reflexivity.
  - apply finb_ok; vm_compute; reflexivity.
  - change (Rabs (val stall_mu) <= 2 ^ 300). rewrite V1, Rabs_pos_eq by (left; apply Rinv_0_lt_compat, pow_lt; lra).
    apply Rle_trans with 1; [rewrite <- Rinv_1; apply Rinv_le_contravar; [lra|]|]; apply pow_R1_Rle; lra.
  - replace (PrimFloat.sub stall_target _) with stall_err by (vm_compute; reflexivity). rewrite V2, Rabs_pos_eq by (left; apply Rinv_0_lt_compat, pow_lt; lra).
    apply Rle_trans with 1; [rewrite <- Rinv_1; apply Rinv_le_contravar; [lra|]|]; apply pow_R1_Rle; lra.
  - intros i Hi. assert (i = 0)%nat as -> by lia. cbv zeta. cbn [nth o_w o_mu stall_filter].
    replace (PrimFloat.sub stall_target _) with stall_err by (vm_compute; reflexivity). rewrite V1, V2, V4, Rmult_1_r, Rabs_R1.
    split; [rewrite <- Rinv_1; apply Rinv_le_contravar; [lra|apply pow_R1_Rle; lra]|]. split; [apply pow_R1_Rle; lra|].
    rewrite Rabs_pos_eq, Rmult_1_r. 2: { apply Rmult_le_pos; left; apply Rinv_0_lt_compat, pow_lt; lra. }
    rewrite <- Rinv_mult, <- pow_add. right. reflexivity.
Qed.

(** In binary64 the error stays 2^-15 for as long as the run lasts; in exact arithmetic the same filter on the same data makes
    the error as small as one likes. *)
Example C91_stalled : forall N, (0 < N)%nat -> exists o' y e w,
  @run _ stall_num (repeat stall_target N) (repeat [PrimFloat.one] N) (stall_filter PrimFloat.one stall_mu) = (o', Ok (y, e, w)) /\
  o_w o' = [PrimFloat.one] /\ forall k, (k < N)%nat -> nth k e PrimFloat.zero = stall_err.
Proof.
  intros N HN. assert (NR : forall {A} (a b : A) k, (k < N)%nat -> nth k (repeat a N) b = a).
  { intros A a b k Hk. rewrite (nth_indep _ b a) by (rewrite repeat_length; exact Hk). apply nth_repeat. }
  destruct (C91_for_good no_solve (fun a => a) (fun a => a) (fun a _ => a) plain_sum plain_dot 1 (stall_filter PrimFloat.one stall_mu)
    (repeat stall_target N) (repeat [PrimFloat.one] N)) as (o' & y & e & w & HR & Hw & H).
  - exact stall_reachable.
  - reflexivity.
  - reflexivity.
  - apply Forall_forall. intros u Hu. apply repeat_spec in Hu. subst u. reflexivity.
  - rewrite !repeat_length. reflexivity.
  - destruct N; [lia|discriminate].
  - intros k Hk. rewrite repeat_length in Hk. rewrite !NR by exact Hk. exact stall_unnoticed.
  - exists o', y, e, w. split; [exact HR|]. split; [exact Hw|]. intros k Hk. destruct (H k) as (_ & _ & He); [rewrite repeat_length; exact Hk|].
    rewrite He, !NR by exact Hk. vm_compute. reflexivity.
Qed.
Lemma map_rep {A B} (f : A -> B) a N : map f (repeat a N) = repeat (f a) N.
Proof. induction N; cbn; congruence. Qed.
Example C91_exact : forall solveR, let NR := RNum solveR in
  @reachable _ NR 1 (stall_filter (val PrimFloat.one) (val stall_mu)) /\
  forall N o' y e w, @run _ NR (map val (repeat stall_target N)) (map (map val) (repeat [PrimFloat.one] N)) (stall_filter (val PrimFloat.one) (val stall_mu)) = (o', Ok (y, e, w)) ->
    forall k, (k < N)%nat -> nth k e 0 = (1 - / 2 ^ 41) ^ k * / 2 ^ 15.
Proof.
  intros solveR NR. split.
  { apply (@reach_new _ NR 1 (fun k => repeat 0 k) KLMS (stall_kw (val PrimFloat.one) (val stall_mu))); [intros k; apply repeat_length|split; discriminate|reflexivity|reflexivity]. }
  destruct val_stall as (V1 & V2 & V3 & V4). rewrite V1, V4. intros N o' y e w HR.
  assert (ED : map val (repeat stall_target N) = repeat (1 + / 2 ^ 15) N) by (rewrite map_rep, V3; reflexivity).
  assert (EX : map (map val) (repeat [PrimFloat.one] N) = repeat [1] N) by (rewrite map_rep; cbn [map]; rewrite V4; reflexivity).
  rewrite ED, EX in HR. clear ED EX.
  assert (NT : forall {A} (a b : A) k, (k < N)%nat -> nth k (repeat a N) b = a).
  { intros A a b k Hk. rewrite (nth_indep _ b a) by (rewrite repeat_length; exact Hk). apply nth_repeat. }
  destruct (@plain_run _ NR 1 (stall_filter 1 (/ 2 ^ 41)) o' (repeat (1 + / 2 ^ 15) N) (repeat [1] N) y e w (fun er u => map (fun a => / 2 ^ 41 * a * er) u)) as (W0 & H).
  - split; [reflexivity|]. repeat split.
  - apply Forall_forall. intros u Hu. apply repeat_spec in Hu. subst u. reflexivity.
  - reflexivity.
  - reflexivity.
  - intros s er u Es Em. unfold learning_rule, bind, get. rewrite Es. cbn [o_ext stall_filter]. rewrite Em. reflexivity.
  - intros. apply map_length.
  - exact HR.
  - rewrite repeat_length in H. set (W := fun k => nth k (w ++ [o_w o']) []) in *.
    assert (G : forall k, (k < N)%nat -> W k = [1 + / 2 ^ 15 - (1 - / 2 ^ 41) ^ k * / 2 ^ 15]).
    { induction k as [|k IH]; intros Hk.
      - etransitivity; [exact W0|]. cbn [o_w stall_filter pow]. f_equal. ring.
      - specialize (IH ltac:(lia)). destruct (H k ltac:(lia)) as (_ & _ & _ & Hy & He & Hn). fold (W k) in Hy, Hn. fold (W (S k)) in Hn. rewrite !NT in * by lia.
        change (nth k y 0 = Rdot (W k) [1]) in Hy. change (nth k e 0 = 1 + / 2 ^ 15 - nth k y 0) in He.
        change (W (S k) = map2 Rplus (W k) [/ 2 ^ 41 * 1 * nth k e 0]) in Hn.
        rewrite Hn, He, Hy, IH. cbn [map2 Rdot]. f_equal. cbn [pow]. ring. }
    intros k Hk. destruct (H k Hk) as (_ & _ & _ & Hy & He & _). fold (W k) in Hy. rewrite !NT in * by exact Hk.
    change (nth k y 0 = Rdot (W k) [1]) in Hy. change (nth k e 0 = 1 + / 2 ^ 15 - nth k y 0) in He. rewrite He, Hy, (G k Hk). cbn [Rdot]. ring.
Qed.
Example C91_exact_vanishes : forall ep, 0 < ep -> exists K, forall k, (K <= k)%nat -> Rabs ((1 - / 2 ^ 41) ^ k * / 2 ^ 15) < ep.
Proof.
  intros ep Hep. assert (P : 0 < / 2 ^ 41) by (apply Rinv_0_lt_compat, pow_lt; lra).
  assert (P1 : / 2 ^ 41 < 1) by (rewrite <- Rinv_1; apply Rinv_lt_contravar; [rewrite Rmult_1_l; apply pow_lt; lra|apply Rlt_pow_R1; [lra|lia]]).
  assert (P15 : 0 < / 2 ^ 15 <= 1).
  { split; [apply Rinv_0_lt_compat, pow_lt; lra|]. rewrite <- Rinv_1. apply Rinv_le_contravar; [lra|apply pow_R1_Rle; lra]. }
  destruct (pow_lt_1_zero (1 - / 2 ^ 41) ltac:(rewrite Rabs_pos_eq; lra) ep Hep) as (K & HK). exists K. intros k Hk.
  specialize (HK k ltac:(lia)). rewrite Rabs_mult, (Rabs_pos_eq (/ 2 ^ 15)) by lra. pose proof (Rabs_pos ((1 - / 2 ^ 41) ^ k)). nra.
Qed.
