(** C114: in IEEE binary64 the weights of a sign-sign LMS filter move on an exact grid.
    With mu = M 2^p and initial weights that are multiples of 2^p, every weight after k samples is exactly its initial value
    plus mu times an integer - no rounding error is ever made in the weights, whatever the inputs are (even when outputs
    overflow), as long as the integers stay below 2^53.  Rounding can act only through the sign of the error, and does not
    act at all when the errors are larger than the rounding of one inner product. *)
From Coq Require Import ZArith QArith Qreals Reals Lra Psatz Permutation Uint63 FloatOps FloatAxioms SpecFloat.
From Coq Require PrimFloat.
From Flocq Require Import Core BinarySingleNaN Plus_error.
From Flocq Require IEEE754.PrimFloat.
From Verif Require Import Py Num NumF Numpy Filters Registry Spec StructProofs RunProofs Reach RMat RVec RFilter PropsStability PropsAlgebra PropsTracking FloatErr PropsRound PropsRoundRun PropsNoOverflow.
Open Scope R_scope.
#[local] Existing Instance Flocq.IEEE754.PrimFloat.Hprec.
#[local] Existing Instance Flocq.IEEE754.PrimFloat.Hmax.
#[local] Notation sqrt := R_sqrt.sqrt.
#[local] Notation bin := Flocq.IEEE754.PrimFloat.Prim2B.

(** ** Specification *)
(** the sign of a binary64: +1 and -1 also for the infinities, 0 for both zeros *)
Definition sign_of (a : float) : Z :=
  match Prim2SF a with
  | S754_finite s _ _ | S754_infinity s => if s then -1 else 1
  | _ => 0
  end%Z.
Definition not_nan (a : float) : Prop := Prim2SF a <> S754_nan.
(** the number is m times 2^p *)
Definition times_2p (a : float) (m p : Z) : Prop := fin a /\ val a = IZR m * powerRZ 2 p.
(** the net number of steps weight i has made after k samples: each sample moves it by sign(x_i) sign(e) steps *)
Fixpoint steps (k : nat) (x : list (list float)) (e : list float) (i : nat) : Z :=
  match k with
  | O => 0
  | S k' => steps k' x e i + sign_of (nth i (nth k' x []) PrimFloat.zero) * sign_of (nth k' e PrimFloat.zero)
  end%Z.

(** ** Signs *)
Lemma sign_le a : (Z.abs (sign_of a) <= 1)%Z.
Proof. unfold sign_of. destruct (Prim2SF a) as [s|s| |s m e]; try destruct s; cbn; lia. Qed.
Lemma sign_val a : fin a -> IZR (sign_of a) = Rsgn (val a).
Proof.
  unfold fin, sign_of, val, Rsgn. destruct (Prim2SF a) as [s|s| |s m e]; intros F; try contradiction.
  - destruct (Rlt_dec 0 0); lra.
  - assert (P : 0 < IZR (Z.pos m) * powerRZ 2 e) by (apply Rmult_lt_0_compat; [apply IZR_lt; reflexivity|apply powerRZ_lt; lra]).
    destruct s.
    + destruct (Rlt_dec _ 0); [reflexivity|]. exfalso. lra.
    + destruct (Rlt_dec _ 0); [exfalso; lra|]. destruct (Rlt_dec 0 _); [reflexivity|exfalso; lra].
Qed.
Lemma fin_not_nan a : fin a -> not_nan a.
Proof. unfold fin, not_nan. destruct (Prim2SF a); try contradiction; discriminate. Qed.
Lemma val_one : val PrimFloat.one = 1.
Proof. unfold val. change (Prim2SF PrimFloat.one) with (S754_finite false 4503599627370496 (-52)). cbn [powerRZ]. change (Pos.to_nat 52) with 52%nat. field. Qed.
Lemma val_mone : val (PrimFloat.opp PrimFloat.one) = -1.
Proof. unfold val. change (Prim2SF (PrimFloat.opp PrimFloat.one)) with (S754_finite true 4503599627370496 (-52)). cbn [powerRZ]. change (Pos.to_nat 52) with 52%nat. field. Qed.
Lemma fsgn_val a : not_nan a -> fin (fsgn a) /\ val (fsgn a) = IZR (sign_of a).
Proof.
  unfold not_nan. intros H. unfold fsgn. rewrite !FloatAxioms.ltb_spec. match goal with |- context [SFltb (Prim2SF a) ?q] => change q with (S754_zero false) end.
  unfold sign_of. remember (Prim2SF a) as f eqn:E. destruct f as [s|s| |s m e]; [|destruct s|congruence|destruct s];
    unfold SFltb; cbn [SFcompare]; cbv beta iota.
  - unfold fin, val. rewrite <- E. split; [exact I|reflexivity].
  - split; [exact I|exact val_mone].
  - split; [exact I|exact val_one].
  - split; [exact I|exact val_mone].
  - split; [exact I|exact val_one].
Qed.

(** ** Exact operations *)
Lemma mul_exact a b : fin a -> fin b -> generic_format radix2 (SpecFloat.fexp FloatOps.prec FloatOps.emax) (val a * val b) ->
  Rabs (val a * val b) < bpow radix2 FloatOps.emax -> fin (PrimFloat.mul a b) /\ val (PrimFloat.mul a b) = val a * val b.
Proof.
  intros Fa Fb G H. rewrite fin_B in *. rewrite !val_B in *. rewrite Flocq.IEEE754.PrimFloat.mul_equiv.
  pose proof (Bmult_correct FloatOps.prec FloatOps.emax Flocq.IEEE754.PrimFloat.Hprec Flocq.IEEE754.PrimFloat.Hmax mode_NE (bin a) (bin b)) as C.
  rewrite round_generic in C; [|apply valid_rnd_round_mode|exact G]. rewrite Rlt_bool_true in C by exact H.
  destruct C as (C1 & C2 & _). rewrite C2, Fa, Fb. split; [reflexivity|exact C1].
Qed.
Lemma add_exact a b : fin a -> fin b -> generic_format radix2 (SpecFloat.fexp FloatOps.prec FloatOps.emax) (val a + val b) ->
  Rabs (val a + val b) < bpow radix2 FloatOps.emax -> fin (PrimFloat.add a b) /\ val (PrimFloat.add a b) = val a + val b.
Proof.
  intros Fa Fb G H. rewrite fin_B in *. rewrite !val_B in *. rewrite Flocq.IEEE754.PrimFloat.add_equiv.
  pose proof (Bplus_correct FloatOps.prec FloatOps.emax Flocq.IEEE754.PrimFloat.Hprec Flocq.IEEE754.PrimFloat.Hmax mode_NE _ _ Fa Fb) as C.
  rewrite round_generic in C; [|apply valid_rnd_round_mode|exact G]. rewrite Rlt_bool_true in C by exact H.
  destruct C as (C1 & C2 & _). split; [exact C2|exact C1].
Qed.
Lemma fin_format a : generic_format radix2 (SpecFloat.fexp FloatOps.prec FloatOps.emax) (val a) /\ Rabs (val a) < bpow radix2 FloatOps.emax.
Proof. rewrite val_B. split; [apply generic_format_B2R|apply abs_B2R_lt_emax]. Qed.
Lemma mul_sign a b : fin a -> not_nan b -> fin (PrimFloat.mul a (fsgn b)) /\ val (PrimFloat.mul a (fsgn b)) = val a * IZR (sign_of b).
Proof.
  intros Fa Hb. destruct (fsgn_val b Hb) as (Fs & Vs). rewrite <- Vs. destruct (fin_format a) as (G & L).
  assert (C : sign_of b = (-1)%Z \/ sign_of b = 0%Z \/ sign_of b = 1%Z) by (pose proof (sign_le b); lia).
  apply mul_exact; auto; rewrite Vs.
  - destruct C as [-> | [-> | ->]].
    + replace (val a * -1) with (- val a) by ring. apply generic_format_opp, G.
    + rewrite Rmult_0_r. apply generic_format_0.
    + rewrite Rmult_1_r. exact G.
  - destruct C as [-> | [-> | ->]].
    + replace (val a * -1) with (- val a) by ring. rewrite Rabs_Ropp. exact L.
    + rewrite Rmult_0_r, Rabs_R0. apply bpow_gt_0.
    + rewrite Rmult_1_r. exact L.
Qed.
Lemma grid_format m p : (-1074 <= p <= 970)%Z -> (Z.abs m <= 2 ^ 53)%Z ->
  generic_format radix2 (SpecFloat.fexp FloatOps.prec FloatOps.emax) (IZR m * bpow radix2 p) /\ Rabs (IZR m * bpow radix2 p) < bpow radix2 FloatOps.emax.
Proof.
  intros Hp Hm. split.
  - destruct (Z.eq_dec (Z.abs m) (2 ^ 53)) as [He|Hne].
    + assert (G : generic_format radix2 (SpecFloat.fexp FloatOps.prec FloatOps.emax) (bpow radix2 (53 + p))).
      { apply generic_format_bpow. unfold SpecFloat.fexp, SpecFloat.emin, FloatOps.prec, FloatOps.emax. lia. }
      rewrite bpow_plus in G. change (bpow radix2 53) with (IZR (2 ^ 53)) in G.
      assert (C : m = (2 ^ 53)%Z \/ m = (- 2 ^ 53)%Z) by lia. destruct C as [-> | ->]; [exact G|].
      rewrite opp_IZR, Ropp_mult_distr_l_reverse. apply generic_format_opp, G.
    + change (SpecFloat.fexp FloatOps.prec FloatOps.emax) with (FLT_exp (-1074) 53). apply generic_format_FLT.
      exists (Float radix2 m p); [reflexivity| |apply Hp]. cbn [Fnum]. change (radix2 ^ 53)%Z with (2 ^ 53)%Z. lia.
  - rewrite Rabs_mult, (Rabs_pos_eq (bpow radix2 p)) by apply bpow_ge_0. rewrite <- abs_IZR.
    apply Rle_lt_trans with (bpow radix2 53 * bpow radix2 p).
    + apply Rmult_le_compat_r; [apply bpow_ge_0|]. change (bpow radix2 53) with (IZR (2 ^ 53)). apply IZR_le, Hm.
    + rewrite <- bpow_plus. apply bpow_lt. unfold FloatOps.emax. lia.
Qed.
Lemma pow_bpow p : powerRZ 2 p = bpow radix2 p.
Proof. rewrite bpow_powerRZ. reflexivity. Qed.
Lemma add_grid a b A B0 p : (-1074 <= p <= 970)%Z -> (Z.abs (A + B0) <= 2 ^ 53)%Z -> times_2p a A p -> times_2p b B0 p ->
  times_2p (PrimFloat.add a b) (A + B0) p /\ val (PrimFloat.add a b) = val a + val b.
Proof.
  intros Hp H (Fa & Va) (Fb & Vb). rewrite pow_bpow in *.
  destruct (grid_format (A + B0) p Hp H) as (G & L).
  assert (E : val a + val b = IZR (A + B0) * bpow radix2 p) by (rewrite Va, Vb, plus_IZR; ring).
  rewrite <- E in G, L. destruct (add_exact a b Fa Fb G L) as (F & V). split; [split; [exact F|]|exact V].
  rewrite V, E, pow_bpow. reflexivity.
Qed.

Lemma steps_le k x e i : (Z.abs (steps k x e i) <= Z.of_nat k)%Z.
Proof.
  induction k as [|k IH]; [cbn; lia|]. cbn [steps].
  set (a := nth i (nth k x []) PrimFloat.zero). set (b := nth k e PrimFloat.zero).
  pose proof (sign_le a). pose proof (sign_le b). assert (Z.abs (sign_of a * sign_of b) <= 1)%Z by (rewrite Z.abs_mul; nia). lia.
Qed.

(** ** C114 *)
Section C114.
  Variable solve : list (list float) -> list (list float) -> option (list (list float)).
  Variables (tanh exp : float -> float) (power : float -> float -> float) (sum : list float -> float) (dot : list float -> list float -> float).
  Variable solveR : list rvec -> list rvec -> option (list rvec).
  #[local] Hint Extern 0 (Num float) => exact (FNumD solve tanh exp power sum dot) : typeclass_instances.
  #[local] Hint Extern 0 (Num R) => exact (RNum solveR) : typeclass_instances.
  Notation zero := PrimFloat.zero.

  Lemma sslms_run n (o o' : obj float) d x y e w : reachable n o -> o_ext o = XSSLMS -> rows_of n x ->
    run d x o = (o', Ok (y, e, w)) ->
    let W k := nth k (w ++ [o_w o']) [] in
    W 0%nat = o_w o /\ forall k, (k < length x)%nat ->
      length (W k) = n /\ length (W (Datatypes.S k)) = n /\ length (nth k x []) = n /\ nth k y zero = dot (W k) (nth k x []) /\
      nth k e zero = PrimFloat.sub (nth k d zero) (nth k y zero) /\
      forall i, (i < n)%nat -> nth i (W (Datatypes.S k)) zero =
        PrimFloat.add (nth i (W k) zero) (PrimFloat.mul (PrimFloat.mul (o_mu o) (fsgn (nth i (nth k x []) zero))) (fsgn (nth k e zero))).
  Proof.
    intros Hr HE Hx HR W.
    set (r := fun (er : float) (u : list float) => map (fun a => PrimFloat.mul (PrimFloat.mul (o_mu o) (fsgn a)) (fsgn er)) u).
    destruct (plain_run n o o' d x y e w r (reachable_wf _ _ Hr) Hx) as (H0 & H1).
    - unfold is_AP. rewrite HE. reflexivity.
    - unfold is_OCNLMS. rewrite HE. reflexivity.
    - intros s er u Es Em. unfold learning_rule, bind, get. rewrite Es, Em, HE. reflexivity.
    - intros er u. apply map_length.
    - exact HR.
    - split; [exact H0|]. intros k Hk. destruct (H1 k Hk) as (L1 & L2 & L3 & Hy & He & Hw).
      split; [exact L1|]. split; [exact L2|]. split; [exact L3|]. split; [exact Hy|]. split; [exact He|].
      intros i Hi. fold (W (Datatypes.S k)) in Hw. fold (W k) in Hw, L1. rewrite Hw.
      set (X := nth k x []) in *. set (E := nth k e zero) in *.
      transitivity (nth i (map2 PrimFloat.add (W k) (r E X)) zero); [reflexivity|].
      assert (Lr : length (r E X) = n) by (unfold r; rewrite map_length; exact L3).
      assert (Em : forall (u v : list float) j, (j < length u)%nat -> length u = length v -> nth j (map2 PrimFloat.add u v) zero = PrimFloat.add (nth j u zero) (nth j v zero)).
      { induction u as [|a u IH]; intros [|b v] [|j] Hj Hl; cbn in *; try lia; try reflexivity. apply IH; lia. }
      rewrite Em by (rewrite ?L1, ?Lr; auto). f_equal. unfold r.
      assert (Em2 : forall (u : list float) j, (j < length u)%nat -> nth j (map (fun a => PrimFloat.mul (PrimFloat.mul (o_mu o) (fsgn a)) (fsgn E)) u) zero =
        PrimFloat.mul (PrimFloat.mul (o_mu o) (fsgn (nth j u zero))) (fsgn E)).
      { induction u as [|a u IH]; intros [|j] Hj; cbn in *; try lia; try reflexivity. apply IH; lia. }
      apply Em2. rewrite L3. exact Hi.
  Qed.

  Section OneRun.
    Variables (n : nat) (o o' : obj float) (d : list float) (x : list (list float)) (y e : list float) (w : list (list float)) (M p : Z) (A : nat -> Z).
    Hypothesis Hr : reachable n o.
    Hypothesis HE : o_ext o = XSSLMS.
    Hypothesis Hx : rows_of n x.
    Hypothesis Hp : (-1074 <= p <= 970)%Z.
    Hypothesis HM : times_2p (o_mu o) M p.
    Hypothesis HA : forall i, (i < n)%nat -> times_2p (nth i (o_w o) zero) (A i) p /\ (Z.abs (A i) + Z.of_nat (length x) * Z.abs M <= 2 ^ 53)%Z.
    Hypothesis Nx : Forall (Forall not_nan) x.
    Hypothesis HR : run d x o = (o', Ok (y, e, w)).
    Notation W k i := (nth i (nth k (w ++ [o_w o']) []) zero).

    Lemma grid_upto k : (k <= length x)%nat -> (forall j, (j < k)%nat -> not_nan (nth j e zero)) -> forall i, (i < n)%nat ->
      times_2p (W k i) (A i + M * steps k x e i) p /\ val (W k i) = val (nth i (o_w o) zero) + val (o_mu o) * IZR (steps k x e i).
    Proof.
      destruct (sslms_run n o o' d x y e w Hr HE Hx HR) as (H0 & H1).
      induction k as [|k IH]; intros Hk He i Hi.
      - rewrite H0. cbn [steps]. destruct (HA i Hi) as (G & _). rewrite Z.mul_0_r, Z.add_0_r, Rmult_0_r, Rplus_0_r. split; [exact G|reflexivity].
      - destruct (IH ltac:(lia) ltac:(intros j Hj; apply He; lia) i Hi) as (G & V).
        destruct (H1 k ltac:(lia)) as (L1 & L3 & L2 & _ & _ & Hw). rewrite Hw by exact Hi.
        assert (Nxi : not_nan (nth i (nth k x []) zero)).
        { rewrite Forall_forall in Nx. assert (Hin : In (nth k x []) x) by (apply nth_In; lia). specialize (Nx _ Hin). rewrite Forall_forall in Nx. apply Nx, nth_In. rewrite L2. exact Hi. }
        destruct HM as (Fm & Vm).
        destruct (mul_sign (o_mu o) _ Fm Nxi) as (F1 & V1). destruct (mul_sign _ _ F1 (He k ltac:(lia))) as (F2 & V2).
        set (a := sign_of (nth i (nth k x []) zero)) in *. set (b := sign_of (nth k e zero)) in *.
        assert (G2 : times_2p (PrimFloat.mul (PrimFloat.mul (o_mu o) (fsgn (nth i (nth k x []) zero))) (fsgn (nth k e zero))) (M * (a * b)) p).
        { split; [exact F2|]. rewrite V2, V1, Vm, !mult_IZR. ring. }
        destruct (HA i Hi) as (_ & HB). pose proof (steps_le (Datatypes.S k) x e i) as HS. cbn [steps] in HS |- *. fold a b in HS |- *.
        assert (HS2 : (Z.abs (A i + M * (steps k x e i + a * b)) <= 2 ^ 53)%Z).
        { eapply Z.le_trans; [apply Z.abs_triangle|]. rewrite Z.abs_mul. set (t := Z.abs (steps k x e i + a * b)) in *. clearbody t. clear - HB HS Hk. nia. }
        rewrite Z.mul_add_distr_l in HS2 |- *. rewrite Z.add_assoc in HS2 |- *.
        destruct (add_grid _ _ _ _ p Hp HS2 G G2) as (G3 & V3). split; [exact G3|].
        rewrite V3, V, V2, V1, plus_IZR, mult_IZR. ring.
    Qed.
  End OneRun.

  (** the weights are exactly the initial ones plus an integer number of steps mu, the integer given by the signs alone *)
  Theorem C114_exact_steps : forall n (o o' : obj float) d x y e w M p (A : nat -> Z),
    reachable n o -> o_ext o = XSSLMS -> rows_of n x -> (-1074 <= p <= 970)%Z -> times_2p (o_mu o) M p ->
    (forall i, (i < n)%nat -> times_2p (nth i (o_w o) zero) (A i) p /\ (Z.abs (A i) + Z.of_nat (length x) * Z.abs M <= 2 ^ 53)%Z) ->
    Forall (Forall not_nan) x -> run d x o = (o', Ok (y, e, w)) -> Forall not_nan e ->
    forall k i, (k <= length x)%nat -> (i < n)%nat ->
      let wi := nth i (nth k (w ++ [o_w o']) []) zero in
      fin wi /\ (Z.abs (steps k x e i) <= Z.of_nat k)%Z /\
      val wi = val (nth i (o_w o) zero) + val (o_mu o) * IZR (steps k x e i).
  Proof.
    intros n o o' d x y e w M p A Hr HE Hx Hp HM HA Nx HR Ne k i Hk Hi wi.
    assert (He : forall j, not_nan (nth j e zero)).
    { intros j. destruct (Nat.lt_ge_cases j (length e)) as [H|H]; [rewrite Forall_forall in Ne; apply Ne, nth_In, H|]. rewrite nth_overflow by exact H. discriminate. }
    destruct (grid_upto n o o' d x y e w M p A Hr HE Hx Hp HM HA Nx HR k Hk (fun j _ => He j) i Hi) as ((F & _) & V).
    split; [exact F|]. split; [apply steps_le|exact V].
  Qed.

  Hypothesis dot_ok : forall u v, length u = length v -> evaluates (combine u v) (dot u v).

  Lemma norm_entries n (u : rvec) B : length u = n -> 0 <= B -> (forall i, (i < n)%nat -> Rabs (nth i u 0) <= B) -> norm u <= INR n * B.
  Proof.
    intros L HB H. pose proof (norm_tab3 n (fun i => Rabs (nth i u 0)) u u 0 0 B L L (Rle_refl 0) (Rle_refl 0) HB) as N.
    apply Rle_trans with (norm (tab n (fun i => Rabs (nth i u 0)))).
    - apply (norm_le n); [exact L|apply tab_length|]. intros i Hi. rewrite tab_nth by exact Hi. lra.
    - eapply Rle_trans; [apply N|lra]. intros i Hi. split; [apply Rabs_pos|]. pose proof (H i Hi). lra.
  Qed.

  (** on finite data of sane size nothing overflows, so the conclusion holds for every run *)
  Lemma sane_grid n (o o' : obj float) d x y e w M p (A : nat -> Z) :
    reachable n o -> o_ext o = XSSLMS -> rows_of n x -> length d = length x -> (-1074 <= p <= 300)%Z -> times_2p (o_mu o) M p ->
    (forall i, (i < n)%nat -> times_2p (nth i (o_w o) zero) (A i) p /\ (Z.abs (A i) + Z.of_nat (length x) * Z.abs M <= 2 ^ 53)%Z) ->
    (Z.of_nat n <= 2 ^ 40)%Z -> Forall (Forall fin) x -> Forall fin d ->
    (forall u, In u x -> norm (map val u) <= 2 ^ 100) -> (forall v, In v d -> Rabs (val v) <= 2 ^ 100) ->
    run d x o = (o', Ok (y, e, w)) ->
    forall k, (k < length x)%nat -> fin (nth k y zero) /\ fin (nth k e zero) /\ Forall fin (nth k (w ++ [o_w o']) []).
  Proof.
    intros Hr HE Hx Hl Hp HM HA Hn Fx Fd HX HD HR.
    assert (Nx : Forall (Forall not_nan) x) by (eapply Forall_impl; [|exact Fx]; intros u Hu; eapply Forall_impl; [|exact Hu]; intros a; apply fin_not_nan).
    assert (Hp' : (-1074 <= p <= 970)%Z) by lia.
    destruct (sslms_run n o o' d x y e w Hr HE Hx HR) as (H0 & H1).
    intros k. induction k as [k IH] using lt_wf_ind. intros Hk.
    pose proof (grid_upto n o o' d x y e w M p A Hr HE Hx Hp' HM HA Nx HR k ltac:(lia)
      (fun j Hj => fin_not_nan _ (proj1 (proj2 (IH j Hj ltac:(lia)))))) as G.
    destruct (H1 k Hk) as (L1 & _ & L2 & Hy & Hee & _).
    set (Wk := nth k (w ++ [o_w o']) []) in *. set (X := nth k x []) in *.
    assert (FW : Forall fin Wk).
    { apply Forall_forall. intros a Ha. apply (In_nth _ _ zero) in Ha as (i & Hi & <-). apply (G i ltac:(lia)). }
    assert (FX : Forall fin X) by (rewrite Forall_forall in Fx; apply Fx, nth_In, Hk).
    assert (NX : norm (map val X) <= 2 ^ 100) by (apply HX, nth_In, Hk).
    assert (B353 : forall i, (i < n)%nat -> Rabs (nth i (map val Wk) 0) <= 2 ^ 353).
    { intros i Hi. rewrite vals_nth. destruct (G i Hi) as ((_ & V) & _). rewrite V, pow_bpow.
      pose proof (steps_le k x e i) as HS. destruct (HA i Hi) as (_ & HB).
      assert (HS2 : (Z.abs (A i + M * steps k x e i) <= 2 ^ 53)%Z).
      { eapply Z.le_trans; [apply Z.abs_triangle|]. rewrite Z.abs_mul. set (t := Z.abs (steps k x e i)) in *. clearbody t. clear - HB HS Hk. nia. }
      rewrite Rabs_mult, (Rabs_pos_eq (bpow radix2 p)) by apply bpow_ge_0. rewrite <- abs_IZR.
      replace (2 ^ 353) with (bpow radix2 53 * bpow radix2 300).
      - apply Rmult_le_compat; [apply IZR_le; lia|apply bpow_ge_0| |apply bpow_le; lia]. change (bpow radix2 53) with (IZR (2 ^ 53)). apply IZR_le, HS2.
      - rewrite <- bpow_plus. change (53 + 300)%Z with (Z.of_nat 353). rewrite bpow_powerRZ, <- pow_powerRZ. reflexivity. }
    assert (Hn' : 0 <= INR n <= 2 ^ 40).
    { split; [apply pos_INR|]. rewrite INR_IZR_INZ. replace (2 ^ 40) with (IZR (2 ^ 40)) by (symmetry; exact (pow_IZR 2 40)). apply IZR_le, Hn. }
    assert (P353 : 0 < 2 ^ 353) by (apply pow_lt; lra).
    assert (NW : norm (map val Wk) <= 2 ^ 393).
    { eapply Rle_trans; [apply (norm_entries n); [rewrite map_length; exact L1|left; exact P353|exact B353]|].
      replace (2 ^ 393) with (2 ^ 40 * 2 ^ 353) by (rewrite <- pow_add; reflexivity). apply Rmult_le_compat_r; lra. }
    assert (NWX : norm (map val Wk) * norm (map val X) <= 2 ^ 493).
    { replace (2 ^ 493) with (2 ^ 393 * 2 ^ 100) by (rewrite <- pow_add; reflexivity). apply Rmult_le_compat; auto; apply norm_pos. }
    assert (Fy : fin (dot Wk X)).
    { apply (dot_fin dot dot_ok n); auto. eapply Rle_trans; [exact NWX|]. apply Rle_pow; [lra|leb]. }
    assert (By : Rabs (val (dot Wk X)) <= 2 ^ 495).
    { eapply Rle_trans; [apply (size_bound _ _ (dot_ok Wk X ltac:(congruence)) Fy)|].
      - destruct (prods n Wk X L1 L2) as (-> & _ & _). lia.
      - destruct (prods n Wk X L1 L2) as (_ & _ & ->). destruct (vals_sum n Wk X L1 L2) as (_ & ->).
        assert (N2 : sumn n (fun i => Rabs (nth i (map val Wk) 0 * nth i (map val X) 0)) <= 2 ^ 493).
        { eapply Rle_trans; [apply abs_sum_CS; rewrite map_length; auto|exact NWX]. }
        assert (1 <= 2 ^ 493) by (apply pow_R1_Rle; lra).
        replace (2 ^ 495) with (4 * 2 ^ 493) by (replace 4 with (2 ^ 2) by lra; rewrite <- pow_add; reflexivity). lra. }
    split; [rewrite Hy; exact Fy|]. split; [|exact FW].
    rewrite Hee, Hy. apply sub_ok; [|exact Fy|].
    - rewrite Forall_forall in Fd. apply Fd, nth_In. rewrite Hl. exact Hk.
    - assert (HDk : Rabs (val (nth k d zero)) <= 2 ^ 100) by (apply HD, nth_In; rewrite Hl; exact Hk).
      unfold cap. replace (2 ^ 1000) with (2 ^ 495 * 2 ^ 505) by (rewrite <- pow_add; reflexivity).
      assert (2 ^ 100 <= 2 ^ 495) by (apply Rle_pow; [lra|leb]). assert (4 <= 2 ^ 505) by (replace 4 with (2 ^ 2) by lra; apply Rle_pow; [lra|leb]).
      assert (2 ^ 495 * 4 <= 2 ^ 495 * 2 ^ 505) by (apply Rmult_le_compat_l; lra). lra.
  Qed.

  Theorem C114_no_overflow : forall n (o : obj float) d x M p (A : nat -> Z),
    reachable n o -> o_ext o = XSSLMS -> rows_of n x -> length d = length x -> x <> [] -> (-1074 <= p <= 300)%Z -> times_2p (o_mu o) M p ->
    (forall i, (i < n)%nat -> times_2p (nth i (o_w o) zero) (A i) p /\ (Z.abs (A i) + Z.of_nat (length x) * Z.abs M <= 2 ^ 53)%Z) ->
    (Z.of_nat n <= 2 ^ 40)%Z -> Forall (Forall fin) x -> Forall fin d ->
    (forall u, In u x -> norm (map val u) <= 2 ^ 100) -> (forall v, In v d -> Rabs (val v) <= 2 ^ 100) ->
    exists o' y e w, run d x o = (o', Ok (y, e, w)) /\ Forall fin y /\ Forall fin e /\
      forall k i, (k <= length x)%nat -> (i < n)%nat ->
        let wi := nth i (nth k (w ++ [o_w o']) []) zero in
        fin wi /\ val wi = val (nth i (o_w o) zero) + val (o_mu o) * IZR (steps k x e i).
  Proof.
    intros n o d x M p A Hr HE Hx Hl Hne Hp HM HA Hn Fx Fd HX HD.
    destruct (run_existsF solve tanh exp power sum dot n o d x Hr Hx Hl Hne) as (o' & y & e & w & HR & Ly & Le & Lw). { intros ex. unfold soft_exn. rewrite HE. auto. }
    pose proof (sane_grid n o o' d x y e w M p A Hr HE Hx Hl Hp HM HA Hn Fx Fd HX HD HR) as H.
    exists o', y, e, w. split; [exact HR|].
    assert (Fe : Forall fin e). { apply Forall_forall. intros a Ha. apply (In_nth _ _ zero) in Ha as (k & Hk & <-). apply H. lia. }
    split. { apply Forall_forall. intros a Ha. apply (In_nth _ _ zero) in Ha as (k & Hk & <-). apply H. lia. }
    split; [exact Fe|]. intros k i Hk Hi wi.
    destruct (C114_exact_steps n o o' d x y e w M p A Hr HE Hx ltac:(lia) HM HA
      ltac:(eapply Forall_impl; [|exact Fx]; intros u Hu; eapply Forall_impl; [|exact Hu]; intros a; apply fin_not_nan) HR
      ltac:(eapply Forall_impl; [|exact Fe]; intros a; apply fin_not_nan) k i Hk Hi) as (F & _ & V).
    split; [exact F|exact V].
  Qed.

  (** when the errors of the exact-arithmetic filter exceed the rounding of one inner product, the binary64 filter has
      exactly its weights, for ever *)
  Theorem C114_same_weights : forall n (oF : obj float) (oR oR' : obj R) d x yR eR wR M p (A : nat -> Z),
    reachable n oF -> reachable n oR -> o_ext oF = XSSLMS -> o_ext oR = XSSLMS -> o_mu oR = val (o_mu oF) -> o_w oR = map val (o_w oF) ->
    rows_of n x -> length d = length x -> x <> [] -> (-1074 <= p <= 300)%Z -> times_2p (o_mu oF) M p ->
    (forall i, (i < n)%nat -> times_2p (nth i (o_w oF) zero) (A i) p /\ (Z.abs (A i) + Z.of_nat (length x) * Z.abs M <= 2 ^ 53)%Z) ->
    (Z.of_nat n <= 2 ^ 40)%Z -> Forall (Forall fin) x -> Forall fin d ->
    (forall u, In u x -> norm (map val u) <= 2 ^ 100) -> (forall v, In v d -> Rabs (val v) <= 2 ^ 100) ->
    run (map val d) (map (map val) x) oR = (oR', Ok (yR, eR, wR)) ->
    (forall k, (k < length x)%nat ->
      dot_slack n (sumn n (fun i => Rabs (nth i (nth k wR []) 0 * val (nth i (nth k x []) zero)))) < Rabs (nth k eR 0)) ->
    exists oF' yF eF wF, run d x oF = (oF', Ok (yF, eF, wF)) /\
      (forall k, (k <= length x)%nat -> map val (nth k (wF ++ [o_w oF']) []) = nth k (wR ++ [o_w oR']) []) /\
      (forall k, (k < length x)%nat -> Rsgn (val (nth k eF zero)) = Rsgn (nth k eR 0)).
  Proof.
    intros n oF oR oR' d x yR eR wR M p A RF RR EF ER Emu Ew Hx Hl Hne Hp HM HA Hn Fx Fd HX HD HRR HS.
    destruct (run_existsF solve tanh exp power sum dot n oF d x RF Hx Hl Hne) as (o' & y & e & w & HR & Ly & Le & Lw). { intros ex. unfold soft_exn. rewrite EF. auto. }
    pose proof (sane_grid n oF o' d x y e w M p A RF EF Hx Hl Hp HM HA Hn Fx Fd HX HD HR) as HF.
    assert (Nx : Forall (Forall not_nan) x) by (eapply Forall_impl; [|exact Fx]; intros u Hu; eapply Forall_impl; [|exact Hu]; intros a; apply fin_not_nan).
    pose proof (grid_upto n oF o' d x y e w M p A RF EF Hx ltac:(lia) HM HA Nx HR) as HG.
    destruct (sslms_run n oF o' d x y e w RF EF Hx HR) as (H0 & H1).
    assert (HxR : rows_of n (map (map val) x)).
    { apply Forall_forall. intros r Hr. apply in_map_iff in Hr as (r' & <- & Hr). rewrite map_length. unfold rows_of in Hx. rewrite Forall_forall in Hx. apply Hx; exact Hr. }
    assert (HT : forall ee v, textbook (o_ext oR) (o_mu oR) ee v <> None) by (rewrite ER; discriminate).
    assert (HSt := fun k Hk => run_textbook solveR n oR oR' (map val d) (map (map val) x) yR eR wR k (reachable_wf _ _ RR) HxR HT HRR Hk).
    rewrite map_length in HSt. rewrite ER in HSt. cbn [textbook] in HSt. unfold wrow in HSt.
    assert (Rx : forall k, nth k (map (map val) x) [] = map val (nth k x [])) by (intros k; exact (map_nth (map val) x [] k)).
    destruct (run_lengths solveR n oR oR' _ _ _ _ _ (reachable_wf _ _ RR) HxR HRR) as (_ & _ & _ & _ & LwR & _). rewrite map_length in LwR.
    assert (W0 : nth 0 (wR ++ [o_w oR']) [] = o_w oR) .
    { assert (H0x : (0 < length (map (map val) x))%nat) by (rewrite map_length; destruct x; [contradiction|cbn; lia]).
      destruct (run_steps n oR oR' _ _ _ _ _ 0%nat (reachable_wf _ _ RR) HxR HRR H0x) as (s & s' & _ & _ & E0 & _ & _ & _ & Hw0 & _).
      rewrite <- Hw0, (E0 eq_refl). reflexivity. }
    assert (SG : forall k, (k < length x)%nat -> map val (nth k (w ++ [o_w o']) []) = nth k (wR ++ [o_w oR']) [] ->
      Rsgn (val (nth k e zero)) = Rsgn (nth k eR 0)).
    { intros k Hk EW. destruct (HSt k Hk) as (dw & _ & _ & HyR & HeR & _ & _). rewrite Rx in HyR.
      destruct (H1 k Hk) as (L1 & _ & L2 & Hy & Hee & _). destruct (HF k Hk) as (Fy & Fe & _).
      set (Wk := nth k (w ++ [o_w o']) []) in *. set (X := nth k x []) in *. set (WR := nth k (wR ++ [o_w oR']) []) in *.
      pose proof (HS k Hk) as Hs. fold X in Hs.
      replace (nth k wR []) with (map val Wk) in Hs by (rewrite EW; unfold WR; rewrite app_nth1 by lia; reflexivity).
      rewrite Hy in Fy. destruct (dot_err dot dot_ok n Wk X L1 L2 Fy) as (_ & B).
      destruct (vals_sum n Wk X L1 L2) as (V1 & _). rewrite V1, EW, <- HyR in B.
      assert (Es : sumn n (fun i => Rabs (val (nth i Wk zero) * val (nth i X zero))) = sumn n (fun i => Rabs (nth i (map val Wk) 0 * val (nth i X zero)))).
      { apply sumn_ext. intros i _. rewrite vals_nth. reflexivity. }
      rewrite Es in B. rewrite Hee in Fe |- *. destruct (sub_err _ _ Fe) as (dl & Hdl & Ve). rewrite Ve, Hy.
      assert (Ed : nth k (map val d) 0 = val (nth k d zero)) by apply vals_nth. rewrite Ed in HeR.
      pose proof uro_small as Hu. assert (Hu2 : / 2 ^ 50 <= / 2) by (apply Rinv_le_contravar; [lra|]; apply Rle_trans with (2 ^ 1); [lra|apply Rle_pow; [lra|leb]]).
      assert (Hd1 : 0 < 1 + dl) by (pose proof (Rle_abs (- dl)) as Q; rewrite Rabs_Ropp in Q; lra).
      set (eF := val (nth k d zero) - val (dot Wk X)). set (er := nth k eR 0) in *. set (sl := dot_slack n _) in *.
      assert (C : Rabs (eF - er) < Rabs er).
      { eapply Rle_lt_trans; [|exact Hs]. unfold eF. rewrite HeR. rewrite <- Rabs_Ropp. eapply Rle_trans; [|exact B]. right. f_equal. ring. }
      clearbody eF er sl. unfold Rsgn.
      assert (Cs : 0 < er /\ 0 < eF \/ er < 0 /\ eF < 0).
      { destruct (Rcase_abs er) as [N|N].
        - rewrite (Rabs_left er N) in C. apply Rabs_def2 in C. right. lra.
        - rewrite (Rabs_right er N) in C. apply Rabs_def2 in C. left. lra. }
      destruct Cs as [(C1 & C2)|(C1 & C2)].
      - assert (0 < eF * (1 + dl)) by (apply Rmult_lt_0_compat; lra).
        destruct (Rlt_dec _ 0); [lra|]. destruct (Rlt_dec er 0); [lra|]. destruct (Rlt_dec 0 _); [|lra]. destruct (Rlt_dec 0 er); [reflexivity|lra].
      - assert (eF * (1 + dl) < 0). { assert (0 < - eF * (1 + dl)) by (apply Rmult_lt_0_compat; lra). lra. }
        destruct (Rlt_dec _ 0); [|lra]. destruct (Rlt_dec er 0); [reflexivity|lra]. }
    assert (EQ : forall k, (k <= length x)%nat -> map val (nth k (w ++ [o_w o']) []) = nth k (wR ++ [o_w oR']) []).
    { induction k as [|k IH]; intros Hk; [rewrite H0, W0; auto|].
      specialize (IH ltac:(lia)). pose proof (SG k ltac:(lia) IH) as Hsg.
      destruct (HSt k ltac:(lia)) as (dw & Edw & HwR & _ & _ & LR & _). injection Edw as <-. rewrite Rx in HwR.
      destruct (H1 k ltac:(lia)) as (L1 & L3 & L2 & _ & _ & Hw).
      apply nth_ext0; [rewrite map_length, L3, HwR; symmetry; apply vadd_length; [exact LR|rewrite !map_length; exact L2]|].
      intros i Hi. rewrite map_length, L3 in Hi. rewrite HwR.
      rewrite nth_vadd by (rewrite LR, !map_length; auto). rewrite <- IH, !vals_nth, Hw by exact Hi.
      rewrite (map_nth_lt _ _ _ 0) by (rewrite map_length, L2; exact Hi). rewrite vals_nth.
      assert (Fxi : fin (nth i (nth k x []) zero)) by (apply nth_fin; rewrite Forall_forall in Fx; apply Fx, nth_In; lia).
      destruct (HF k ltac:(lia)) as (_ & Fe & FW). destruct HM as (Fm & Vm).
      destruct (mul_sign (o_mu oF) _ Fm (fin_not_nan _ Fxi)) as (F1 & V1). destruct (mul_sign _ _ F1 (fin_not_nan _ Fe)) as (F2 & V2).
      destruct (HG (Datatypes.S k) Hk (fun j Hj => fin_not_nan _ (proj1 (proj2 (HF j ltac:(lia))))) i Hi) as (_ & VS).
      destruct (HG k ltac:(lia) (fun j Hj => fin_not_nan _ (proj1 (proj2 (HF j ltac:(lia))))) i Hi) as (_ & VK).
      rewrite Hw in VS by exact Hi. rewrite VS, VK. cbn [steps]. rewrite plus_IZR, mult_IZR, !sign_val by assumption.
      rewrite Hsg, Emu. ring. }
    exists o', y, e, w. split; [exact HR|]. split; [exact EQ|]. intros k Hk. apply SG; [exact Hk|apply EQ; lia].
  Qed.
End C114.

(** ** Concrete cases *)
Definition half : float := PrimFloat.div PrimFloat.one PrimFloat.two.
Definition three : float := PrimFloat.add PrimFloat.two PrimFloat.one.
Definition grid_filter (mu : float) (w : list float) : obj float := mkObj w (length w) mu None XSSLMS.
Definition grid_x : list (list float) := [[PrimFloat.one; PrimFloat.two]; [PrimFloat.two; PrimFloat.one]].
Definition grid_d : list float := [three; three].

(** every such filter is what FilterSSLMS(n, mu, w=[...]) returns *)
Lemma grid_reachable mu w : @reachable _ round_num (length w) (grid_filter mu w).
Proof.
  apply (@reach_new _ round_num (length w) (fun k => repeat PrimFloat.zero k) KSSLMS (mkKw (Some (Z.of_nat (length w))) (Some mu) (Some (WVec w)) None None None None None None None None false)).
  - intros k. apply repeat_length.
  - split; discriminate.
  - cbn. reflexivity.
  - unfold new_filter. cbn. unfold init_base. replace (Z.of_nat (length w) =? -1)%Z with false by (symmetry; apply Z.eqb_neq; lia).
    unfold init_weights. rewrite Z.eqb_refl, Nat2Z.id. reflexivity.
Qed.

(** mu = 0.5, two taps starting at zero, two samples; the errors of the exact filter are 3 and 1.5 *)
Example C114_hypotheses : forall solveR, let NR := RNum solveR in
  let oR := mkObj [0; 0] 2 (val half) None XSSLMS in let oF := grid_filter half [PrimFloat.zero; PrimFloat.zero] in
  (forall u v, length u = length v -> evaluates (combine u v) (plain_dot u v)) /\
  @reachable _ round_num 2 oF /\ @reachable _ NR 2 oR /\ o_w oR = map val (o_w oF) /\
  rows_of 2 grid_x /\ length grid_d = length grid_x /\ grid_x <> [] /\ times_2p half 1 (-1) /\
  (forall i, (i < 2)%nat -> times_2p (nth i (o_w oF) PrimFloat.zero) 0 (-1)) /\
  Forall (Forall fin) grid_x /\ Forall fin grid_d /\
  (forall u, In u grid_x -> norm (map val u) <= 2 ^ 100) /\ (forall v, In v grid_d -> Rabs (val v) <= 2 ^ 100) /\
  exists oR' yR eR wR, @run _ NR (map val grid_d) (map (map val) grid_x) oR = (oR', Ok (yR, eR, wR)) /\ nth 1 eR 0 = 3 / 2 /\ o_w oR' = [1; 1] /\
  (forall k, (k < length grid_x)%nat ->
      dot_slack 2 (sumn 2 (fun i => Rabs (nth i (nth k wR []) 0 * val (nth i (nth k grid_x []) PrimFloat.zero)))) < Rabs (nth k eR 0)).
Proof.
  intros solveR NR oR oF.
  assert (V1 : val PrimFloat.one = 1) by exact val_one.
  assert (V2 : val PrimFloat.two = 2) by (rewrite val_Q; change (valQ PrimFloat.two) with (valQ (PrimFloat.two)); vm_compute (valQ _); unfold Q2R; cbn; lra).
  assert (V3 : val three = 3) by (rewrite val_Q; vm_compute (valQ _); unfold Q2R; cbn; lra).
  assert (VH : val half = 1 / 2) by (rewrite val_Q; vm_compute (valQ _); unfold Q2R; cbn; lra).
  assert (B : 4 <= 2 ^ 100). { replace 4 with (2 ^ 2) by lra. apply Rle_pow; [lra|leb]. }
  assert (N : forall a b, a * a + b * b <= 9 -> norm [a; b] <= 3).
  { intros a b H. unfold norm. replace 3 with (sqrt 9) by (replace 9 with (3 * 3) by lra; apply sqrt_square; lra). apply sqrt_le_1_alt.
    replace (normsq [a; b]) with (a * a + b * b) by (unfold normsq; cbn; ring). exact H. }
  assert (HrR : @reachable _ NR 2 oR) by (apply (fresh2_reachable solveR (val half) None None None KSSLMS); reflexivity).
  split; [exact plain_dot_ok|]. split; [exact (grid_reachable half [PrimFloat.zero; PrimFloat.zero])|]. split; [exact HrR|].
  split; [reflexivity|]. split; [repeat constructor|]. split; [reflexivity|]. split; [discriminate|].
  split. { split; [apply finb_ok; vm_compute; reflexivity|]. rewrite VH. cbn [powerRZ]. change (Pos.to_nat 1) with 1%nat. rewrite pow_1. lra. }
  split. { intros i Hi. destruct i as [|[|i]]; [| |lia]; (split; [exact I|]); change (val PrimFloat.zero = 0 * powerRZ 2 (-1)); change (val PrimFloat.zero) with 0; ring. }
  split; [repeat (constructor; [apply finb_all; vm_compute; reflexivity|]); constructor|]. split; [apply finb_all; vm_compute; reflexivity|].
  split. { intros u Hu. apply Rle_trans with 3; [|lra]. destruct Hu as [<-|[<-|[]]]; cbn [map]; apply N; rewrite ?V1, ?V2; lra. }
  split. { intros v Hv. destruct Hv as [<-|[<-|[]]]; rewrite V3; rewrite Rabs_pos_eq; lra. }
  assert (Hx : rows_of 2 (map (map val) grid_x)) by (repeat constructor).
  destruct (run_exists solveR 2 oR (map val grid_d) (map (map val) grid_x) HrR Hx eq_refl ltac:(discriminate)) as (oR' & yR & eR & wR & HR). { intros ex. unfold soft_exn, oR. cbn. auto. }
  assert (HT : forall ee v, textbook (o_ext oR) (o_mu oR) ee v <> None) by (intros; discriminate).
  destruct (run_textbook solveR 2 oR oR' _ _ _ _ _ 0%nat (reachable_wf _ _ HrR) Hx HT HR ltac:(cbn; lia)) as (d0 & T0 & W1 & Y0 & E0 & _ & _).
  destruct (run_textbook solveR 2 oR oR' _ _ _ _ _ 1%nat (reachable_wf _ _ HrR) Hx HT HR ltac:(cbn; lia)) as (d1 & T1 & W2 & Y1 & E1 & _ & _).
  destruct (run_lengths solveR 2 oR oR' _ _ _ _ _ (reachable_wf _ _ HrR) Hx HR) as (_ & _ & _ & _ & LwR & _). cbn in LwR.
  destruct wR as [|w0 [|w1 [|]]]; try discriminate LwR. unfold wrow in *. cbn [nth app] in *.
  assert (W0 : w0 = [0; 0]).
  { destruct (@run_steps _ NR 2 oR oR' _ _ _ _ _ 0%nat (reachable_wf _ _ HrR) Hx HR ltac:(cbn; lia)) as (s & s' & _ & _ & I0 & _ & _ & _ & Hw0 & _).
    cbn [nth app] in Hw0. rewrite <- Hw0, (I0 eq_refl). reflexivity. }
  assert (S1 : Rsgn 1 = 1) by (unfold Rsgn; destruct (Rlt_dec 1 0); [lra|]; destruct (Rlt_dec 0 1); lra).
  assert (S2 : Rsgn 2 = 1) by (unfold Rsgn; destruct (Rlt_dec 2 0); [lra|]; destruct (Rlt_dec 0 2); lra).
  assert (S3 : Rsgn 3 = 1) by (unfold Rsgn; destruct (Rlt_dec 3 0); [lra|]; destruct (Rlt_dec 0 3); lra).
  assert (S4 : Rsgn (3 / 2) = 1) by (unfold Rsgn; destruct (Rlt_dec (3 / 2) 0); [lra|]; destruct (Rlt_dec 0 (3 / 2)); lra).
  cbn [map nth grid_x grid_d] in *. subst w0. rewrite V1, V2 in *. rewrite V3 in *.
  assert (EE0 : nth 0 eR 0 = 3) by (rewrite E0, Y0; cbn; ring). rewrite EE0 in *.
  change (o_mu oR) with (val half) in T0, T1. rewrite VH in T0, T1.
  injection T0 as <-. cbn in W1. rewrite S1, S2, S3 in W1.
  assert (WW1 : w1 = [1 / 2; 1 / 2]) by (rewrite W1; f_equal; [ring|f_equal; ring]). clear W1. subst w1.
  assert (EE1 : nth 1 eR 0 = 3 / 2) by (rewrite E1, Y1; cbn; field). rewrite EE1 in *.
  injection T1 as <-. cbn in W2. rewrite S1, S2, S4 in W2.
  exists oR', yR, eR, [[0; 0]; [1 / 2; 1 / 2]]. split; [exact HR|]. split; [exact EE1|].
  split. { rewrite W2. f_equal; [field|f_equal; field]. }
  intros k Hk. eapply Rle_lt_trans; [apply slack_simple; [vm_compute; discriminate|apply sumn_nonneg; intros; apply Rabs_pos]|].
  destruct k as [|[|k]]; [| |cbn in Hk; lia]; cbn [nth sumn]; rewrite ?EE0, ?EE1, ?V1, ?V2; rewrite ?Rmult_0_l, ?Rabs_R0; rewrite ?(Rabs_pos_eq) by lra; lra.
Qed.

(** the weights move by exact multiples of mu only because mu is a multiple of the grid with few digits: with mu = 0.1, whose
    M has 53 digits, the third step is already rounded *)
Theorem C114_tenth_refuted :
  let oF := grid_filter tenth [PrimFloat.zero] in
  @reachable _ round_num 1 oF /\
  exists o' y e w, @run _ round_num [three; three; three] [[PrimFloat.one]; [PrimFloat.one]; [PrimFloat.one]] oF = (o', Ok (y, e, w)) /\
    steps 3 [[PrimFloat.one]; [PrimFloat.one]; [PrimFloat.one]] e 0 = 3%Z /\
    val (nth 0 (o_w o') PrimFloat.zero) <> 3 * val tenth.
Proof.
  intros oF. split; [exact (grid_reachable tenth [PrimFloat.zero])|].
  destruct (@run _ round_num [three; three; three] [[PrimFloat.one]; [PrimFloat.one]; [PrimFloat.one]] oF) as [o' r] eqn:E.
  assert (E' := E). vm_compute in E'. injection E' as E1 E2. subst r. do 4 eexists. split; [reflexivity|].
  split; [vm_compute; reflexivity|]. rewrite <- E1.
  replace 3 with (Q2R 3) by (unfold Q2R; cbn; lra). rewrite !val_Q, <- Q2R_mult. intros H. apply eqR_Qeq in H. vm_compute in H. discriminate.
Qed.
(** and a weight that is too large for the grid does not move at all: 2^60 + 0.1 = 2^60 in binary64, although the error is not zero *)
Definition huge : float := FloatOps.Z.ldexp PrimFloat.one 60.
Theorem C114_too_large_refuted :
  let oF := grid_filter tenth [huge] in
  @reachable _ round_num 1 oF /\ @adapt _ round_num three [PrimFloat.one] oF = (oF, Ok tt) /\
  sign_of PrimFloat.one = 1%Z /\ sign_of (PrimFloat.sub three (plain_dot [huge] [PrimFloat.one])) = (-1)%Z.
Proof.
  intros oF. split; [exact (grid_reachable tenth [huge])|].
  split; [vm_compute; reflexivity|]. split; vm_compute; reflexivity.
Qed.
