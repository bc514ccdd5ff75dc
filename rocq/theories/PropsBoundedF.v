(** C117: the filters with a bounded step - SSLMS, NSSLMS, Llncosh - cannot overflow in IEEE binary64.
    LMS and NLMS need a small enough mu for that (C89) - LMS with a large one runs into inf and nan.  The step of these three
    is bounded whatever the error is, so that on finite data of sane size every output, error and weight is finite for every
    mu up to 2^100, stable or not, and the weights grow at most linearly, rounding included. *)
From Coq Require Import ZArith QArith Qreals Reals Lra Psatz Permutation Uint63 FloatOps FloatAxioms SpecFloat.
From Coq Require PrimFloat.
From Flocq Require Import Core BinarySingleNaN Plus_error.
From Flocq Require IEEE754.PrimFloat.
From Verif Require Import Py Num NumF Numpy Filters Registry Spec StructProofs RunProofs Reach RMat RVec RFilter PropsStability PropsAlgebra PropsTracking FloatErr PropsRound PropsRoundRun PropsNoOverflow PropsGrid.
Open Scope R_scope.
#[local] Existing Instance Flocq.IEEE754.PrimFloat.Hprec.
#[local] Existing Instance Flocq.IEEE754.PrimFloat.Hmax.
#[local] Notation sqrt := R_sqrt.sqrt.

Lemma uro_le_half : uro <= / 2.
Proof. eapply Rle_trans; [apply uro_small|]. replace (/ 2) with (/ 2 ^ 1) by lra. apply pw_le. leb. Qed.
Lemma twice d a : Rabs d <= uro -> Rabs (a * (1 + d)) <= 2 * Rabs a.
Proof.
  intros Hd. rewrite Rabs_mult, Rmult_comm. apply Rmult_le_compat_r; [apply Rabs_pos|]. pose proof uro_le_half.
  revert Hd. unfold Rabs. repeat destruct (Rcase_abs _); lra.
Qed.
Lemma pw_split a b : 2 ^ a * 2 ^ b = 2 ^ (a + b).
Proof. symmetry. apply pow_add. Qed.
Lemma nth_map2 (f : float -> float -> float) : forall u v j a b c, (j < length u)%nat -> length u = length v -> nth j (map2 f u v) c = f (nth j u a) (nth j v b).
Proof. induction u as [|p u IH]; intros [|q v] [|j] a b c Hj Hl; cbn in *; try lia; try reflexivity. apply IH; lia. Qed.

Section C117.
  Variable solve : list (list float) -> list (list float) -> option (list (list float)).
  Variables (tanh exp : float -> float) (power : float -> float -> float) (sum : list float -> float) (dot : list float -> list float -> float).
  #[local] Hint Extern 0 (Num float) => exact (FNumD solve tanh exp power sum dot) : typeclass_instances.
  Notation zero := PrimFloat.zero.
  Hypothesis dot_ok : forall u v, length u = length v -> evaluates (combine u v) (dot u v).

  (** sane data: finite, inputs of Euclidean norm at most xi, targets below 2^100, up to 2^40 taps and 2^50 samples *)
  Definition sane_data (n : nat) (o : obj float) (d : list float) (x : list (list float)) (xi : R) : Prop :=
    (Z.of_nat n <= 2 ^ 40)%Z /\ (Z.of_nat (length x) <= 2 ^ 50)%Z /\ rows_of n x /\ length d = length x /\ x <> [] /\
    Forall (Forall fin) x /\ Forall fin d /\ Forall fin (o_w o) /\ fin (o_mu o) /\ Rabs (val (o_mu o)) <= 2 ^ 100 /\
    (forall u, In u x -> norm (map val u) <= xi) /\ xi <= 2 ^ 100 /\ (forall v, In v d -> Rabs (val v) <= 2 ^ 100) /\
    (forall v, In v (o_w o) -> Rabs (val v) <= 2 ^ 100).

  Definition stays_finite (n : nat) (o : obj float) (d : list float) (x : list (list float)) (B : R) : Prop :=
    exists o' y e w, run d x o = (o', Ok (y, e, w)) /\ Forall fin y /\ Forall fin e /\ Forall (Forall fin) (w ++ [o_w o']) /\
      forall k i, (k <= length x)%nat -> (i < n)%nat ->
        Rabs (val (nth i (nth k (w ++ [o_w o']) []) zero)) <= 2 * (Rabs (val (nth i (o_w o) zero)) + INR k * B).

  Lemma bounded_step n (o : obj float) d x xi B (r : float -> list float -> list float) :
    reachable n o -> sane_data n o d x xi -> is_AP o = false -> is_OCNLMS o = false -> (forall ex, ~ soft_exn o ex) ->
    (forall s er u, o_ext s = o_ext o -> o_mu s = o_mu o -> learning_rule er u s = (s, Ok (r er u))) ->
    (forall er u, length (r er u) = length u) -> 0 <= B <= 2 ^ 210 ->
    (forall er u i, fin er -> Rabs (val er) <= 2 ^ 410 -> In u x -> (i < n)%nat -> fin (nth i (r er u) zero) /\ Rabs (val (nth i (r er u) zero)) <= B) ->
    stays_finite n o d x B.
  Proof.
    intros Hr (Hn & HN & Hx & Hl & Hne & Fx & Fd & Fw & Fm & Hm & HX & Hxi & HD & HW0) Hap Hoc Hs Hrule Hlr HB HS.
    destruct (run_existsF solve tanh exp power sum dot n o d x Hr Hx Hl Hne Hs) as (o' & y & e & w & HR & Ly & Le & Lw).
    exists o', y, e, w. split; [exact HR|].
    destruct (plain_run n o o' d x y e w r (reachable_wf _ _ Hr) Hx Hap Hoc Hrule Hlr HR) as (H0' & H1').
    pose (W := fun k => nth k (w ++ [o_w o']) []).
    assert (H0 : W 0%nat = o_w o) by exact H0'.
    assert (H1 : forall k, (k < length x)%nat -> length (W k) = n /\ length (W (Datatypes.S k)) = n /\ length (nth k x []) = n /\ nth k y zero = dot (W k) (nth k x []) /\
      nth k e zero = PrimFloat.sub (nth k d zero) (nth k y zero) /\ W (Datatypes.S k) = map2 PrimFloat.add (W k) (r (nth k e zero) (nth k x []))) by exact H1'.
    clear H0' H1'.
    pose proof uro_pos as Hu.
    assert (LW : forall k, (k <= length x)%nat -> length (W k) = n).
    { intros [|k] Hk; [|apply (H1 k); lia]. apply (H1 0%nat). destruct x; [contradiction|cbn; lia]. }
    assert (Hn' : 0 <= INR n <= 2 ^ 40).
    { split; [apply pos_INR|]. rewrite INR_IZR_INZ. replace (2 ^ 40) with (IZR (2 ^ 40)) by (symmetry; exact (pow_IZR 2 40)). apply IZR_le, Hn. }
    assert (HNk : forall k, (k <= length x)%nat -> 0 <= INR k <= 2 ^ 50).
    { intros k Hk. split; [apply pos_INR|]. apply Rle_trans with (INR (length x)); [apply le_INR, Hk|].
      rewrite INR_IZR_INZ. replace (2 ^ 50) with (IZR (2 ^ 50)) by (symmetry; exact (pow_IZR 2 50)). apply IZR_le, HN. }
    assert (HG : forall k, (k <= length x)%nat -> 1 <= (1 + uro) ^ k <= 2).
    { intros k Hk. apply growth; [lra|]. apply Rle_trans with (2 ^ 50 * uro); [apply Rmult_le_compat_r; [lra|apply HNk, Hk]|]. unfold uro.
      rewrite pw by leb. apply Rle_trans with (/ 2 ^ 1); [apply pw_le; leb|lra]. }
    assert (P261 : 0 < 2 ^ 261) by (apply pow_lt; lra).
    assert (Main : forall k, (k <= length x)%nat ->
      (forall i, (i < n)%nat -> fin (nth i (W k) zero) /\ Rabs (val (nth i (W k) zero)) <= (1 + uro) ^ k * (Rabs (val (nth i (o_w o) zero)) + INR k * B)) /\
      ((k < length x)%nat -> fin (nth k y zero) /\ fin (nth k e zero) /\ Rabs (val (nth k e zero)) <= 2 ^ 410)).
    { assert (Size : forall k i, (k <= length x)%nat -> (i < n)%nat ->
        (1 + uro) ^ k * (Rabs (val (nth i (o_w o) zero)) + INR k * B) <= 2 * (Rabs (val (nth i (o_w o) zero)) + INR k * B) /\
        2 * (Rabs (val (nth i (o_w o) zero)) + INR k * B) <= 2 ^ 262).
      { intros k i Hk Hi. assert (0 <= INR k * B <= 2 ^ 260).
        { split; [apply Rmult_le_pos; [apply pos_INR|lra]|]. change 260%nat with (50 + 210)%nat. rewrite pow_add. apply Rmult_le_compat; [apply pos_INR|lra|apply HNk, Hk|lra]. }
        pose proof (Rabs_pos (val (nth i (o_w o) zero))).
        assert (Rabs (val (nth i (o_w o) zero)) <= 2 ^ 100). { apply HW0, nth_In. rewrite <- H0, LW by lia. exact Hi. }
        split; [apply Rmult_le_compat_r; [lra|apply HG, Hk]|].
        assert (2 ^ 100 <= 2 ^ 260) by (apply Rle_pow; [lra|leb]). replace (2 ^ 262) with (4 * 2 ^ 260) by (replace 4 with (2 ^ 2) by lra; rewrite <- pow_add; reflexivity). lra. }
      assert (Out : forall k, (k < length x)%nat ->
        (forall i, (i < n)%nat -> fin (nth i (W k) zero) /\ Rabs (val (nth i (W k) zero)) <= (1 + uro) ^ k * (Rabs (val (nth i (o_w o) zero)) + INR k * B)) ->
        fin (nth k y zero) /\ fin (nth k e zero) /\ Rabs (val (nth k e zero)) <= 2 ^ 410).
      { intros k Hk HWk. destruct (H1 k Hk) as (L1 & _ & L2 & Hy & Hee & _). set (X := nth k x []) in *.
        assert (FW : Forall fin (W k)).
        { apply Forall_forall. intros a Ha. apply (In_nth _ _ zero) in Ha as (i & Hi & <-). apply HWk. lia. }
        assert (FX : Forall fin X) by (rewrite Forall_forall in Fx; apply Fx, nth_In, Hk).
        assert (NX : norm (map val X) <= 2 ^ 100) by (eapply Rle_trans; [apply HX, nth_In, Hk|exact Hxi]).
        assert (NW : norm (map val (W k)) <= 2 ^ 302).
        { eapply Rle_trans; [apply (norm_entries n _ (2 ^ 262)); [rewrite map_length; exact L1|apply pow_le; lra|]|].
          - intros i Hi. rewrite vals_nth. destruct (HWk i Hi) as (_ & HWi). destruct (Size k i ltac:(lia) Hi). lra.
          - replace (2 ^ 302) with (2 ^ 40 * 2 ^ 262) by (rewrite <- pow_add; reflexivity). apply Rmult_le_compat_r; [apply pow_le; lra|lra]. }
        assert (NWX : norm (map val (W k)) * norm (map val X) <= 2 ^ 402).
        { replace (2 ^ 402) with (2 ^ 302 * 2 ^ 100) by (rewrite <- pow_add; reflexivity). apply Rmult_le_compat; auto; apply norm_pos. }
        assert (Fy : fin (dot (W k) X)).
        { apply (dot_fin dot dot_ok n); auto. eapply Rle_trans; [exact NWX|]. apply Rle_pow; [lra|leb]. }
        assert (By : Rabs (val (dot (W k) X)) <= 2 ^ 404).
        { eapply Rle_trans; [apply (size_bound _ _ (dot_ok (W k) X ltac:(congruence)) Fy)|].
          - destruct (prods n (W k) X L1 L2) as (-> & _ & _). lia.
          - destruct (prods n (W k) X L1 L2) as (_ & _ & ->). destruct (vals_sum n (W k) X L1 L2) as (_ & ->).
            assert (N2 : sumn n (fun i => Rabs (nth i (map val (W k)) 0 * nth i (map val X) 0)) <= 2 ^ 402).
            { eapply Rle_trans; [apply abs_sum_CS; rewrite map_length; auto|exact NWX]. }
            assert (1 <= 2 ^ 402) by (apply pow_R1_Rle; lra).
            replace (2 ^ 404) with (4 * 2 ^ 402) by (replace 4 with (2 ^ 2) by lra; rewrite <- pow_add; reflexivity). lra. }
        assert (Fdk : fin (nth k d zero)) by (rewrite Forall_forall in Fd; apply Fd, nth_In; rewrite Hl; exact Hk).
        assert (HDk : Rabs (val (nth k d zero)) <= 2 ^ 100) by (apply HD, nth_In; rewrite Hl; exact Hk).
        assert (2 ^ 100 <= 2 ^ 404) by (apply Rle_pow; [lra|leb]). assert (E410 : 2 ^ 410 = 64 * 2 ^ 404) by (replace 64 with (2 ^ 6) by lra; rewrite <- pow_add; reflexivity).
        assert (Fe : fin (PrimFloat.sub (nth k d zero) (dot (W k) X))).
        { apply sub_ok; [exact Fdk|exact Fy|]. assert (2 ^ 410 <= cap) by (unfold cap; apply Rle_pow; [lra|leb]). lra. }
        assert (Ek : nth k e zero = PrimFloat.sub (nth k d zero) (dot (W k) X)).
        { etransitivity; [exact Hee|]. f_equal. exact Hy. }
        assert (Yk : nth k y zero = dot (W k) X) by exact Hy.
        rewrite Ek, Yk. split; [exact Fy|]. split; [exact Fe|]. destruct (sub_err _ _ Fe) as (dl & Hdl & ->).
        eapply Rle_trans; [apply twice, Hdl|]. assert (Rabs (val (nth k d zero) - val (dot (W k) X)) <= Rabs (val (nth k d zero)) + Rabs (val (dot (W k) X))).
        { unfold Rminus. eapply Rle_trans; [apply Rabs_triang|]. rewrite Rabs_Ropp. lra. }
        lra. }
      induction k as [|k IH]; intros Hk.
      - assert (Base : forall i, (i < n)%nat -> fin (nth i (W 0%nat) zero) /\ Rabs (val (nth i (W 0%nat) zero)) <= (1 + uro) ^ 0 * (Rabs (val (nth i (o_w o) zero)) + INR 0 * B)).
        { intros i Hi. rewrite H0. split; [apply nth_fin, Fw|]. cbn [pow INR]. lra. }
        split; [exact Base|]. intros H. apply Out; [exact H|exact Base].
      - destruct (IH ltac:(lia)) as (I1 & I2). destruct (I2 ltac:(lia)) as (Fyk & Fek & Bek).
        destruct (H1 k ltac:(lia)) as (L1 & L3 & L2 & _ & _ & Hw).
        assert (Step : forall i, (i < n)%nat -> fin (nth i (W (Datatypes.S k)) zero) /\
          Rabs (val (nth i (W (Datatypes.S k)) zero)) <= (1 + uro) ^ Datatypes.S k * (Rabs (val (nth i (o_w o) zero)) + INR (Datatypes.S k) * B)).
        { intros i Hi. set (X := nth k x []) in *. set (E := nth k e zero) in *.
          assert (Hwi : nth i (W (Datatypes.S k)) zero = PrimFloat.add (nth i (W k) zero) (nth i (r E X) zero)).
          { rewrite Hw. exact (nth_map2 PrimFloat.add (W k) (r E X) i zero zero zero ltac:(rewrite L1; exact Hi) ltac:(rewrite Hlr, L1, L2; reflexivity)). }
          destruct (HS E X i Fek Bek ltac:(apply nth_In; lia) Hi) as (F2 & B2). destruct (I1 i Hi) as (F1 & B1).
          destruct (Size k i ltac:(lia) Hi) as (S1 & S2). rewrite Hwi.
          assert (FA : fin (PrimFloat.add (nth i (W k) zero) (nth i (r E X) zero))).
          { apply add_ok; auto. assert (2 ^ 262 + 2 ^ 210 <= cap); [|lra]. unfold cap. apply Rle_trans with (2 * 2 ^ 262).
            - assert (2 ^ 210 <= 2 ^ 262) by (apply Rle_pow; [lra|leb]). lra.
            - change (2 * 2 ^ 262) with (2 ^ 263). apply Rle_pow; [lra|leb]. }
          split; [exact FA|]. destruct (add_err _ _ FA) as (dl & Hdl & ->). rewrite Rabs_mult.
          assert (D1 : Rabs (1 + dl) <= 1 + uro) by (eapply Rle_trans; [apply Rabs_triang|]; rewrite Rabs_R1; lra).
          rewrite S_INR. cbn [pow]. rewrite Rmult_comm.
          set (a := Rabs (val (nth i (o_w o) zero))) in *. assert (0 <= a) by apply Rabs_pos.
          rewrite Rmult_assoc. apply Rmult_le_compat; [apply Rabs_pos|apply Rabs_pos|exact D1|].
          eapply Rle_trans; [apply Rabs_triang|]. destruct (HG k ltac:(lia)) as (G1 & _).
          assert (B <= (1 + uro) ^ k * B) by (rewrite <- (Rmult_1_l B) at 1; apply Rmult_le_compat_r; lra). lra. }
        split; [exact Step|]. intros H. apply Out; [exact H|exact Step]. }
    assert (Fl : forall k, (k <= length x)%nat -> Forall fin (nth k (w ++ [o_w o']) []) /\ ((k < length x)%nat -> fin (nth k y PrimFloat.zero) /\ fin (nth k e PrimFloat.zero))).
    { intros k Hk. destruct (Main k Hk) as (M1 & M2). split; [|intros H; split; apply (M2 H)].
      apply Forall_forall. intros a Ha. apply (In_nth _ _ zero) in Ha as (i & Hi & <-). apply M1. fold (W k) in Hi. rewrite LW in Hi by exact Hk. exact Hi. }
    destruct (fin_lists o' x y e w Ly Le Lw Fl) as (A1 & A2 & A3).
    split; [exact A1|]. split; [exact A2|]. split; [exact A3|]. intros k i Hk Hi.
    destruct (Main k Hk) as (M1 & _). destruct (M1 i Hi) as (_ & M3). eapply Rle_trans; [exact M3|].
    apply Rmult_le_compat_r; [|apply HG, Hk]. apply Rplus_le_le_0_compat; [apply Rabs_pos|apply Rmult_le_pos; [apply pos_INR|lra]].
  Qed.

  Lemma nth_mapf (f : float -> float) u i : (i < length u)%nat -> nth i (map f u) zero = f (nth i u zero).
  Proof. intros H. rewrite (nth_indep _ zero (f zero)) by (rewrite map_length; exact H). apply map_nth. Qed.

  (** each weight moves by at most mu per sample *)
  Theorem C117_SSLMS : forall n (o : obj float) d x xi, reachable n o -> o_ext o = XSSLMS -> sane_data n o d x xi ->
    stays_finite n o d x (Rabs (val (o_mu o))).
  Proof.
    intros n o d x xi Hr HE Hs. pose proof Hs as (_ & _ & Hx & _ & _ & Fx & _ & _ & Fm & Hm & _).
    apply (bounded_step n o d x xi _ (fun er u => map (fun a => PrimFloat.mul (PrimFloat.mul (o_mu o) (fsgn a)) (fsgn er)) u)); auto.
    - unfold is_AP. rewrite HE. reflexivity.
    - unfold is_OCNLMS. rewrite HE. reflexivity.
    - intros ex. unfold soft_exn. rewrite HE. auto.
    - intros s er u Es Em. unfold learning_rule, bind, get. rewrite Es, Em, HE. reflexivity.
    - intros er u. apply map_length.
    - split; [apply Rabs_pos|]. eapply Rle_trans; [exact Hm|]. apply Rle_pow; [lra|leb].
    - intros er u i Fe _ Hu Hi. assert (Lu : length u = n) by (unfold rows_of in Hx; rewrite Forall_forall in Hx; apply Hx, Hu).
      assert (Fu : fin (nth i u zero)) by (apply nth_fin; rewrite Forall_forall in Fx; apply Fx, Hu).
      rewrite nth_mapf by (rewrite Lu; exact Hi).
      destruct (mul_sign (o_mu o) _ Fm (fin_not_nan _ Fu)) as (F1 & V1). destruct (mul_sign _ _ F1 (fin_not_nan _ Fe)) as (F2 & V2).
      split; [exact F2|]. rewrite V2, V1, !Rabs_mult, <- !abs_IZR, Rmult_assoc. rewrite <- (Rmult_1_r (Rabs (val (o_mu o)))) at 2.
      apply Rmult_le_compat_l; [apply Rabs_pos|]. rewrite <- mult_IZR. apply (IZR_le _ 1).
      pose proof (sign_le (nth i u zero)). pose proof (sign_le er). nia.
  Qed.

  Lemma rate_bound n (mu eps : float) (x : list float) : length x = n -> (Z.of_nat n <= 2 ^ 40)%Z -> Forall fin x -> fin mu -> fin eps ->
    Rabs (val mu) <= 2 ^ 100 -> / 2 ^ 100 <= val eps <= 2 ^ 100 -> norm (map val x) <= 2 ^ 100 ->
    let c := PrimFloat.div mu (PrimFloat.add eps (dot x x)) in fin c /\ Rabs (val c) <= 8 * Rabs (val mu) / val eps + eta.
  Proof.
    intros Lx Hn Fx Fm Fe Hmu Heps Hxi c. pose proof uro_pos as Hu. pose proof eta_pos as Ht.
    assert (E0 : 0 < / 2 ^ 100) by (apply Rinv_0_lt_compat, pow_lt; lra).
    assert (Lv : length (map val x) = n) by (rewrite map_length; exact Lx).
    pose proof (norm_pos (map val x)) as X0.
    assert (HQ2 : normsq (map val x) <= 2 ^ 200). { rewrite <- norm_sq. change 200%nat with (100 + 100)%nat. rewrite pow_add. apply Rmult_le_compat; lra. }
    pose proof (normsq_nonneg (map val x)) as HQ.
    assert (Fd : fin (dot x x)).
    { apply (dot_fin dot dot_ok n); auto. rewrite norm_sq. eapply Rle_trans; [exact HQ2|]. apply Rle_pow; [lra|leb]. }
    destruct (dot_err dot dot_ok n x x Lx Lx Fd) as (_ & A1). destruct (vals_sum n x x Lx Lx) as (V1 & V2). rewrite V1, V2 in A1.
    assert (Ea : sumn n (fun i => Rabs (nth i (map val x) 0 * nth i (map val x) 0)) = normsq (map val x)).
    { rewrite (normsq_sumn n) by exact Lv. apply sumn_ext; intros i _. apply Rabs_pos_eq, Rle_0_sqr. }
    rewrite Ea in A1. fold (normsq (map val x)) in A1. set (Q := normsq (map val x)) in *.
    destruct (nlms_q n (val eps) (map val x) Hn (proj1 Heps)) as (Hk & _). unfold kappa in Hk. fold Q in Hk.
    assert (HP : 0 < val eps + Q) by lra.
    assert (HD : dot_slack n Q <= / 2 * (val eps + Q)).
    { assert (HD0 : 0 <= dot_slack n Q) by (apply dot_slack_nonneg; exact HQ).
      assert (T : dot_slack n Q / (val eps + Q) <= / 2).
      { apply Rle_trans with ((1 + uro) * dot_slack n Q / (val eps + Q)); [|lra]. unfold Rdiv. apply Rmult_le_compat_r; [left; apply Rinv_0_lt_compat; exact HP|].
        rewrite <- (Rmult_1_l (dot_slack n Q)) at 1. apply Rmult_le_compat_r; lra. }
      replace (dot_slack n Q) with (dot_slack n Q / (val eps + Q) * (val eps + Q)) by (field; lra). apply Rmult_le_compat_r; lra. }
    assert (Hd : Q - / 2 * (val eps + Q) <= val (dot x x) <= Q + / 2 * (val eps + Q)) by (revert A1; unfold Rabs; destruct (Rcase_abs _); lra).
    assert (B : 2 ^ 100 <= 2 ^ 200) by (apply Rle_pow; [lra|leb]).
    set (P := PrimFloat.add eps (dot x x)) in *.
    assert (FP : fin P).
    { apply add_ok; auto. rewrite (Rabs_pos_eq (val eps)) by lra.
      assert (Rabs (val (dot x x)) <= 2 * 2 ^ 200) by (unfold Rabs; destruct (Rcase_abs _); lra).
      apply Rle_trans with (2 ^ 202); [replace (2 ^ 202) with (4 * 2 ^ 200) by (replace 4 with (2 ^ 2) by lra; rewrite <- pow_add; reflexivity); lra|apply Rle_pow; [lra|leb]]. }
    destruct (add_err eps (dot x x) FP) as (dl & Hdl & EP). fold P in EP. pose proof uro_le_half as U1.
    assert (H1 : / 2 <= 1 + dl) by (revert Hdl; unfold Rabs; destruct (Rcase_abs _); lra).
    assert (HPv : / 4 * val eps <= val P).
    { rewrite EP. apply Rle_trans with (/ 2 * (val eps + Q) * / 2); [lra|]. apply Rmult_le_compat; lra. }
    assert (HP0 : 0 < val P) by lra.
    assert (I : / val P <= 4 / val eps).
    { replace (4 / val eps) with (/ (/ 4 * val eps)) by (field; lra). apply Rinv_le_contravar; [lra|exact HPv]. }
    assert (IP : 0 < / val P) by (apply Rinv_0_lt_compat; exact HP0).
    assert (Q1 : Rabs (val mu / val P) <= 4 * Rabs (val mu) / val eps).
    { unfold Rdiv. rewrite Rabs_mult, (Rabs_pos_eq (/ val P)) by lra. apply Rle_trans with (Rabs (val mu) * (4 / val eps)); [apply Rmult_le_compat_l; [apply Rabs_pos|exact I]|]. right. unfold Rdiv. ring. }
    assert (Q2 : 4 * Rabs (val mu) / val eps <= 2 ^ 202).
    { replace (2 ^ 202) with (4 * 2 ^ 100 * 2 ^ 100) by (replace 4 with (2 ^ 2) by lra; rewrite <- !pow_add; reflexivity). unfold Rdiv.
      apply Rmult_le_compat; [pose proof (Rabs_pos (val mu)); lra|left; apply Rinv_0_lt_compat; lra|lra|].
      rewrite <- (Rinv_inv (2 ^ 100)). apply Rinv_le_contravar; lra. }
    assert (Fc : fin c). { apply div_ok; auto; [lra|]. eapply Rle_trans; [exact Q1|]. eapply Rle_trans; [exact Q2|]. apply Rle_pow; [lra|leb]. }
    split; [exact Fc|]. destruct (div_err mu P Fc FP ltac:(lra)) as (d2 & h & Hd2 & Hh & Ec). unfold c. fold P. rewrite Ec.
    eapply Rle_trans; [apply Rabs_triang|]. apply Rplus_le_compat; [|exact Hh]. eapply Rle_trans; [apply twice, Hd2|]. unfold Rdiv in *. lra.
  Qed.

  (** each weight moves by at most 8 mu / eps per sample *)
  Theorem C117_NSSLMS : forall n (o : obj float) eps d x xi, reachable n o -> o_ext o = XNSSLMS eps -> sane_data n o d x xi ->
    fin eps -> / 2 ^ 100 <= val eps <= 2 ^ 100 -> stays_finite n o d x (8 * Rabs (val (o_mu o)) / val eps + eta).
  Proof.
    intros n o eps d x xi Hr HE Hs Fe He. pose proof Hs as (Hn & _ & Hx & _ & _ & Fx & _ & _ & Fm & Hm & HX & Hxi & _).
    assert (E0 : 0 < / 2 ^ 100) by (apply Rinv_0_lt_compat, pow_lt; lra). pose proof eta_pos as Ht.
    apply (bounded_step n o d x xi _ (fun er u => let c := PrimFloat.div (o_mu o) (PrimFloat.add eps (dot u u)) in map (fun a => PrimFloat.mul (PrimFloat.mul c (fsgn a)) (fsgn er)) u)); auto.
    - unfold is_AP. rewrite HE. reflexivity.
    - unfold is_OCNLMS. rewrite HE. reflexivity.
    - intros ex. unfold soft_exn. rewrite HE. auto.
    - intros s er u Es Em. unfold learning_rule, bind, get. rewrite Es, Em, HE. reflexivity.
    - intros er u. apply map_length.
    - pose proof (Rabs_pos (val (o_mu o))) as M0. assert (I0 : 0 < / val eps) by (apply Rinv_0_lt_compat; lra).
      assert (I1 : / val eps <= 2 ^ 100) by (rewrite <- (Rinv_inv (2 ^ 100)); apply Rinv_le_contravar; lra).
      assert (0 <= 8 * Rabs (val (o_mu o)) * / val eps) by (apply Rmult_le_pos; lra).
      assert (T1 : 8 * Rabs (val (o_mu o)) * / val eps <= 8 * 2 ^ 100 * 2 ^ 100) by (apply Rmult_le_compat; lra).
      unfold Rdiv. split; [lra|].
      assert (T : 8 * 2 ^ 100 * 2 ^ 100 = 2 ^ 203) by (replace 8 with (2 ^ 3) by lra; rewrite <- !pow_add; reflexivity).
      assert (eta <= 1). { eapply Rle_trans; [apply eta_small|]. rewrite <- Rinv_1. apply Rinv_le_contravar; [lra|apply pow_R1_Rle; lra]. }
      assert (1 <= 2 ^ 203) by (apply pow_R1_Rle; lra). replace (2 ^ 210) with (128 * 2 ^ 203) by (replace 128 with (2 ^ 7) by lra; rewrite <- pow_add; reflexivity). lra.
    - intros er u i Fer _ Hu Hi. assert (Lu : length u = n) by (unfold rows_of in Hx; rewrite Forall_forall in Hx; apply Hx, Hu).
      assert (Fuu : Forall fin u) by (rewrite Forall_forall in Fx; apply Fx, Hu).
      assert (Fu : fin (nth i u zero)) by (apply nth_fin, Fuu).
      destruct (rate_bound n (o_mu o) eps u Lu Hn Fuu Fm Fe Hm He ltac:(eapply Rle_trans; [apply HX, Hu|exact Hxi])) as (Fc & Bc).
      cbv zeta. set (c := PrimFloat.div (o_mu o) (PrimFloat.add eps (dot u u))) in *.
      rewrite nth_mapf by (rewrite Lu; exact Hi).
      destruct (mul_sign c _ Fc (fin_not_nan _ Fu)) as (F1 & V1). destruct (mul_sign _ _ F1 (fin_not_nan _ Fer)) as (F2 & V2).
      split; [exact F2|]. eapply Rle_trans; [|exact Bc]. rewrite V2, V1, !Rabs_mult, <- !abs_IZR, Rmult_assoc. rewrite <- (Rmult_1_r (Rabs (val c))) at 2.
      apply Rmult_le_compat_l; [apply Rabs_pos|]. rewrite <- mult_IZR. apply (IZR_le _ 1).
      pose proof (sign_le (nth i u zero)). pose proof (sign_le er). nia.
  Qed.

  (** each weight moves by at most about 4 mu xi per sample, for every tanh with values in [-1, 1] *)
  Theorem C117_Llncosh : forall n (o : obj float) lambd d x xi, reachable n o -> o_ext o = XLlncosh lambd -> sane_data n o d x xi ->
    (forall a, fin a -> fin (tanh a) /\ Rabs (val (tanh a)) <= 1) -> fin lambd -> Rabs (val lambd) <= 2 ^ 100 ->
    stays_finite n o d x (4 * Rabs (val (o_mu o)) * xi + (2 * xi + 1) * eta).
  Proof.
    intros n o lambd d x xi Hr HE Hs Ht Fl Hlam. pose proof Hs as (Hn & _ & Hx & _ & Hne & Fx & _ & _ & Fm & Hm & HX & Hxi & _).
    pose proof eta_pos as He. pose proof (Rabs_pos (val (o_mu o))) as M0.
    assert (X0 : 0 <= xi). { destruct x as [|x0 x']; [contradiction|]. eapply Rle_trans; [apply norm_pos|apply (HX x0 (or_introl eq_refl))]. }
    assert (E1 : eta <= 1). { eapply Rle_trans; [apply eta_small|]. rewrite <- Rinv_1. apply Rinv_le_contravar; [lra|apply pow_R1_Rle; lra]. }
    assert (P100 : 1 <= 2 ^ 100) by (apply pow_R1_Rle; lra).
    apply (bounded_step n o d x xi _ (fun er u => vscale (PrimFloat.mul (o_mu o) (tanh (PrimFloat.mul lambd er))) u)); auto.
    - unfold is_AP. rewrite HE. reflexivity.
    - unfold is_OCNLMS. rewrite HE. reflexivity.
    - intros ex. unfold soft_exn. rewrite HE. auto.
    - intros s er u Es Em. unfold learning_rule, bind, get. rewrite Es, Em, HE. reflexivity.
    - intros er u. apply map_length.
    - split; [apply Rplus_le_le_0_compat; repeat apply Rmult_le_pos; lra|].
      assert (T1 : Rabs (val (o_mu o)) * xi <= 2 ^ 100 * 2 ^ 100) by (apply Rmult_le_compat; lra). rewrite <- pow_add in T1. change (100 + 100)%nat with 200%nat in T1.
      assert (T2 : (2 * xi + 1) * eta <= (2 * xi + 1) * 1) by (apply Rmult_le_compat_l; lra).
      assert (2 ^ 100 <= 2 ^ 200) by (apply Rle_pow; [lra|leb]). replace (2 ^ 210) with (1024 * 2 ^ 200) by (replace 1024 with (2 ^ 10) by lra; rewrite <- pow_add; reflexivity). lra.
    - intros er u i Fer Ber Hu Hi. assert (Lu : length u = n) by (unfold rows_of in Hx; rewrite Forall_forall in Hx; apply Hx, Hu).
      assert (Fu : fin (nth i u zero)) by (apply nth_fin; rewrite Forall_forall in Fx; apply Fx, Hu).
      assert (Bu : Rabs (val (nth i u zero)) <= xi).
      { rewrite <- vals_nth. eapply Rle_trans; [apply (entry_le_norm n); [rewrite map_length; exact Lu|exact Hi]|apply HX, Hu]. }
      assert (F1 : fin (PrimFloat.mul lambd er)).
      { apply mul_ok; auto. rewrite Rabs_mult. apply Rle_trans with (2 ^ 100 * 2 ^ 410); [apply Rmult_le_compat; auto; apply Rabs_pos|].
        rewrite <- pow_add. apply Rle_pow; [lra|leb]. }
      destruct (Ht _ F1) as (F2 & B2). set (t := tanh (PrimFloat.mul lambd er)) in *.
      assert (B3 : Rabs (val (o_mu o) * val t) <= Rabs (val (o_mu o))).
      { rewrite Rabs_mult. rewrite <- (Rmult_1_r (Rabs (val (o_mu o)))) at 2. apply Rmult_le_compat_l; [exact M0|exact B2]. }
      assert (F3 : fin (PrimFloat.mul (o_mu o) t)).
      { apply mul_ok; auto. eapply Rle_trans; [exact B3|]. eapply Rle_trans; [exact Hm|]. apply Rle_pow; [lra|leb]. }
      set (c := PrimFloat.mul (o_mu o) t) in *.
      assert (Bc : Rabs (val c) <= 2 * Rabs (val (o_mu o)) + eta).
      { destruct (mul_err _ _ F3) as (dl & h & Hdl & Hh & Ec). fold c in Ec. rewrite Ec. eapply Rle_trans; [apply Rabs_triang|].
        apply Rplus_le_compat; [|exact Hh]. eapply Rle_trans; [apply twice, Hdl|]. lra. }
      unfold vscale. rewrite nth_mapf by (rewrite Lu; exact Hi). change (nmul c (nth i u zero)) with (PrimFloat.mul c (nth i u zero)).
      assert (B5 : Rabs (val c * val (nth i u zero)) <= (2 * Rabs (val (o_mu o)) + eta) * xi) by (rewrite Rabs_mult; apply Rmult_le_compat; auto; apply Rabs_pos).
      assert (F4 : fin (PrimFloat.mul c (nth i u zero))).
      { apply mul_ok; auto. eapply Rle_trans; [exact B5|]. apply Rle_trans with ((3 * 2 ^ 100) * 2 ^ 100); [apply Rmult_le_compat; lra|].
        apply Rle_trans with (4 * 2 ^ 100 * 2 ^ 100); [apply Rmult_le_compat_r; lra|].
        replace (4 * 2 ^ 100 * 2 ^ 100) with (2 ^ 202) by (replace 4 with (2 ^ 2) by lra; rewrite <- !pow_add; reflexivity). apply Rle_pow; [lra|leb]. }
      split; [exact F4|]. destruct (mul_err _ _ F4) as (d2 & h2 & Hd2 & Hh2 & E2). rewrite E2. eapply Rle_trans; [apply Rabs_triang|].
      pose proof (twice d2 (val c * val (nth i u zero)) Hd2). lra.
  Qed.
End C117.

(** ** Concrete cases: one tap, mu = 2^20, twenty samples of size 2^20 *)
(** a tanh with values in [-1, 1]: the sign *)
Definition clip_num : Num float := FNumD no_solve fsgn (fun a => a) (fun a _ => a) plain_sum plain_dot.
Definition loud : float := Nat.iter 20 (PrimFloat.mul PrimFloat.two) PrimFloat.one.
Definition loud_kw (eps lambd : option float) : kwargs float :=
  mkKw (Some 1%Z) (Some loud) (Some (WVec [PrimFloat.one])) eps None None lambd None None None None false.
Definition loud_filter (e : ext float) : obj float := mkObj [PrimFloat.one] 1 loud None e.
Definition loud_x : list (list float) := repeat [loud] 20.
Definition loud_d : list float := repeat PrimFloat.one 20.
Lemma loud_val : val loud = 2 ^ 20.
Proof. rewrite val_Q. replace (2 ^ 20) with (IZR 1048576) by lra. vm_compute (valQ _). unfold Q2R. cbn [Qnum Qden]. lra. Qed.
Lemma loud_reachable k eps lambd e : @new_filter _ clip_num (fun j => repeat PrimFloat.zero j) k (loud_kw eps lambd) = Ok (loud_filter e) ->
  @reachable _ clip_num 1 (loud_filter e).
Proof.
  intros H. apply (@reach_new _ clip_num 1 (fun j => repeat PrimFloat.zero j) k (loud_kw eps lambd)); [intros j; apply repeat_length|split; discriminate|reflexivity|exact H].
Qed.
Lemma loud_sane e : sane_data 1 (loud_filter e) loud_d loud_x (2 ^ 20).
Proof.
  assert (Fl : fin loud) by (apply finb_ok; vm_compute; reflexivity).
  assert (P : 0 <= 2 ^ 20 <= 2 ^ 100) by (split; [apply pow_le; lra|apply Rle_pow; [lra|leb]]).
  assert (P1 : 1 <= 2 ^ 100) by (apply pow_R1_Rle; lra).
  split; [vm_compute; discriminate|]. split; [vm_compute; discriminate|]. split; [apply Forall_forall; intros u Hu; apply repeat_spec in Hu; subst u; reflexivity|].
  split; [reflexivity|]. split; [discriminate|]. split; [apply Forall_forall; intros u Hu; apply repeat_spec in Hu; subst u; constructor; [exact Fl|constructor]|].
  split; [apply finb_all; vm_compute; reflexivity|]. split; [apply finb_all; vm_compute; reflexivity|]. split; [exact Fl|].
  split; [cbn [loud_filter o_mu]; rewrite loud_val, Rabs_pos_eq; lra|].
  split. { intros u Hu. apply repeat_spec in Hu. subst u. cbn [map]. rewrite loud_val. unfold norm. replace (normsq [2 ^ 20]) with (2 ^ 20 * 2 ^ 20) by (unfold normsq; cbn [Rdot map2 fold_right]; ring). right. apply sqrt_square. lra. }
  split; [lra|]. split.
  - intros v Hv. apply repeat_spec in Hv. subst v. rewrite val_one, Rabs_R1. exact P1.
  - intros v Hv. cbn [loud_filter o_w] in Hv. destruct Hv as [<-|[]]. rewrite val_one, Rabs_R1. exact P1.
Qed.

(** the hypotheses of the three theorems hold together on this data *)
Example C117_hypotheses :
  (forall u v, length u = length v -> evaluates (combine u v) (plain_dot u v)) /\
  @reachable _ clip_num 1 (loud_filter XSSLMS) /\ @reachable _ clip_num 1 (loud_filter (XNSSLMS PrimFloat.one)) /\
  @reachable _ clip_num 1 (loud_filter (XLlncosh PrimFloat.one)) /\ (forall e, sane_data 1 (loud_filter e) loud_d loud_x (2 ^ 20)) /\
  (/ 2 ^ 100 <= val PrimFloat.one <= 2 ^ 100) /\ (forall a, fin a -> fin (fsgn a) /\ Rabs (val (fsgn a)) <= 1).
Proof.
  split; [exact plain_dot_ok|].
  split; [apply (loud_reachable KSSLMS None None); vm_compute; reflexivity|].
  split; [apply (loud_reachable KNSSLMS (Some PrimFloat.one) None); vm_compute; reflexivity|].
  split; [apply (loud_reachable KLlncosh None (Some PrimFloat.one)); vm_compute; reflexivity|].
  split; [exact loud_sane|]. assert (P1 : 1 <= 2 ^ 100) by (apply pow_R1_Rle; lra).
  split; [rewrite val_one; split; [rewrite <- Rinv_1; apply Rinv_le_contravar; lra|exact P1]|].
  intros a Fa. destruct (fsgn_val a (fin_not_nan _ Fa)) as (F & V). split; [exact F|]. rewrite V, <- abs_IZR. apply (IZR_le _ 1). apply sign_le.
Qed.

(** on the same data LMS does overflow: its outputs contain an infinity and then nan *)
Theorem C117_LMS_overflows : @reachable _ clip_num 1 (loud_filter XLMS) /\ sane_data 1 (loud_filter XLMS) loud_d loud_x (2 ^ 20) /\
  exists o' y e w, @run _ clip_num loud_d loud_x (loud_filter XLMS) = (o', Ok (y, e, w)) /\ ~ Forall fin y /\
    PrimFloat.is_infinity (nth 17 y PrimFloat.zero) = true /\ PrimFloat.is_nan (nth 19 y PrimFloat.zero) = true.
Proof.
  split; [apply (loud_reachable KLMS None None); vm_compute; reflexivity|]. split; [apply loud_sane|].
  destruct (@run _ clip_num loud_d loud_x (loud_filter XLMS)) as [o' r] eqn:E. vm_compute in E. injection E as E1 E2. subst r.
  do 4 eexists. split; [reflexivity|]. split; [|split; vm_compute; reflexivity].
  intros H. rewrite Forall_forall in H. apply (H PrimFloat.nan). cbn [In]. do 19 right. left. reflexivity.
Qed.
