(** Properties C34-C36: standardize, standardize_back, input_from_history. *)
From Coq Require Import Reals Lra Psatz QArith.
From Verif Require Import Py Num NumQ NumF Numpy RVec RMat Preprocess.
Open Scope nat_scope.

(** ** C36, any arithmetic *)
Section Any.
  Context {T : Type} {NT : Num T}.
  Notation vec := (list T).
  Notation mat := (list (list T)).

  (** Specification: the matrix of sliding windows of width n *)
  Definition windows (a : vec) (n : nat) (x : mat) : Prop :=
    length x + n = length a + 1 /\
    forall i, i < length x -> length (nth i x []) = n /\
      forall j, j < n -> forall dflt, nth j (nth i x []) dflt = nth (i + j) a dflt.

  Lemma skipn_nth {A} (l : list A) i j d : nth j (skipn i l) d = nth (i + j) l d.
  Proof. revert l; induction i as [|i IH]; intros [|a l]; simpl; auto. destruct j; auto. Qed.
  Lemma firstn_nth {A} (l : list A) i j d : j < i -> nth j (firstn i l) d = nth j l d.
  Proof. revert l j; induction i as [|i IH]; intros [|a l] [|j] H; simpl; auto; try lia. apply IH; lia. Qed.

  Lemma history_windows a n : 0 < n <= length a ->
    windows a n (map (fun i => slice a i (i + n)) (seq 0 (Z.to_nat (Z.of_nat (length a) - Z.of_nat n + 1)))).
  Proof.
    intros Hn. unfold windows. rewrite map_length, seq_length. split; [lia|].
    intros i Hi. rewrite (map_nth_lt _ _ _ 0) by (rewrite seq_length; auto). rewrite seq_nth by auto. cbn [plus].
    unfold slice. replace (i + n - i) with n by lia. split.
    - rewrite firstn_length, skipn_length. lia.
    - intros j Hj d. rewrite firstn_nth by auto. apply skipn_nth.
  Qed.

  Theorem C36_windows : forall a z, (0 < z <= Z.of_nat (length a))%Z ->
    exists x, input_from_history a (PInt z) false = Ok x /\ windows a (Z.to_nat z) x /\
      input_from_history a (PInt z) true = Ok (map (fun r => r ++ [n1]) x).
  Proof.
    intros a z Hz. unfold input_from_history. destruct (Z.leb_spec z 0); [lia|].
    eexists. split; [reflexivity|]. split; [|reflexivity].
    pose proof (history_windows a (Z.to_nat z) ltac:(lia)) as Hw. rewrite Z2Nat.id in Hw by lia. exact Hw.
  Qed.

  Theorem C36_too_short : forall a z bias, (Z.of_nat (length a) < z)%Z -> input_from_history a (PInt z) bias = Ok [].
  Proof.
    intros a z bias Hz. unfold input_from_history. destruct (Z.leb_spec z 0); [lia|].
    replace (Z.to_nat (Z.of_nat (length a) - z + 1)) with 0 by lia. destruct bias; reflexivity.
  Qed.

  Theorem C36_rejected : forall a n bias,
    input_from_history a n bias = Err ValueError <-> match n with PInt z => (z <= 0)%Z | PNotInt => True end.
  Proof.
    intros a [z|] bias; unfold input_from_history; [|tauto].
    destruct (Z.leb_spec z 0); split; intros H'; auto; try lia; discriminate.
  Qed.

  (** the series is determined by its windows *)
  Theorem C36_recoverable : forall a a' n x, 0 < n <= length a -> 0 < n <= length a' ->
    windows a n x -> windows a' n x -> a = a'.
  Proof.
    intros a a' n x Hn Hn' (Hl & H1) (Hl' & H2).
    destruct a as [|t a0] eqn:Ea; [simpl in Hn; lia|]. rewrite <- Ea in *.
    apply (nth_ext _ _ t t); [lia|]. intros k Hk.
    assert (Hx : 0 < length x) by lia.
    destruct (Nat.lt_ge_cases k (length x)) as [Hc|Hc].
    - destruct (H1 k Hc) as (_ & E1). destruct (H2 k Hc) as (_ & E2).
      specialize (E1 0 ltac:(lia) t). specialize (E2 0 ltac:(lia) t). rewrite Nat.add_0_r in *. congruence.
    - set (i := length x - 1). assert (Hi : i < length x) by (unfold i; lia).
      destruct (H1 i Hi) as (_ & E1). destruct (H2 i Hi) as (_ & E2).
      specialize (E1 (k - i) ltac:(unfold i; lia) t). specialize (E2 (k - i) ltac:(unfold i; lia) t).
      replace (i + (k - i)) with k in * by lia. congruence.
  Qed.

  Theorem C34_lengths : forall (x : vec) oa ob a b,
    length (standardize x oa ob) = length x /\ length (standardize_back x a b) = length x.
  Proof. intros; unfold standardize, standardize_back; rewrite !map_length; auto. Qed.
End Any.

(** the hypotheses of C36_windows are met: three windows of width 2, with the bias column *)
Example C36_hypotheses : forall (S0 : list (list Q) -> list (list Q) -> option (list (list Q))),
  input_from_history (NT := QNum S0) [1; 2; 3; 4]%Q (PInt 2) true = Ok [[1; 2; 1]; [2; 3; 1]; [3; 4; 1]]%Q.
Proof. reflexivity. Qed.

(** ** C34, C35: exact reals *)
Section RProps.
  Variable solve : list rvec -> list rvec -> option (list rvec).
  #[local] Hint Extern 0 (Num R) => exact (RNum solve) : typeclass_instances.
  Local Open Scope R_scope.

  (** Specification: arithmetic mean and (population) standard deviation *)
  Definition mean_of (x : rvec) : R := Rsum x / INR (length x).
  Definition std_of (x : rvec) : R := sqrt (mean_of (map (fun a => (a - mean_of x) ^ 2) x)).
  Definition constant (x : rvec) : Prop := forall a b, In a x -> In b x -> a = b.

  Lemma mean_eq (x : rvec) : mean x = mean_of x.
  Proof. unfold mean, mean_of, nofnat; simpl. rewrite INR_IZR_INZ. reflexivity. Qed.
  Lemma std_eq (x : rvec) : std x = std_of x.
  Proof.
    unfold std, std_of. rewrite !mean_eq. simpl (nsqrt _). f_equal. f_equal. apply map_ext; intros a.
    simpl (npown _ _). rewrite <- (pow2_abs (a - mean_of x)). reflexivity.
  Qed.

  Theorem C34_standardize_back_inverse : forall (x : rvec) a b, b <> 0 ->
    standardize_back (standardize x (Some a) (Some b)) a b = x /\
    standardize (standardize_back x a b) (Some a) (Some b) = x.
  Proof.
    intros x a b Hb. unfold standardize, standardize_back. rewrite !map_map. split.
    - rewrite <- (map_id x) at 2. apply map_ext; intros c; simpl. field; auto.
    - rewrite <- (map_id x) at 2. apply map_ext; intros c; simpl. field; auto.
  Qed.

  Lemma INR_pos (x : rvec) : x <> [] -> 0 < INR (length x).
  Proof. intros H; apply lt_0_INR; destruct x; [congruence|simpl; lia]. Qed.

  Lemma Rsum_affine c k (x : rvec) : Rsum (map (fun a => c * a + k) x) = c * Rsum x + INR (length x) * k.
  Proof. induction x as [|a x IH]; [simpl; ring|]. cbn [map Rsum length]. rewrite IH, S_INR; ring. Qed.

  Lemma mean_affine c k (x : rvec) : x <> [] -> mean_of (map (fun a => c * a + k) x) = c * mean_of x + k.
  Proof.
    intros H; unfold mean_of. rewrite Rsum_affine, map_length. pose proof (INR_pos x H). field; lra.
  Qed.

  Lemma mean_nonneg (x : rvec) : (forall a, In a x -> 0 <= a) -> 0 <= mean_of x.
  Proof.
    intros H. unfold mean_of. destruct x as [|b x']; [simpl; unfold Rdiv; lra|].
    apply Rmult_le_pos.
    - revert H; generalize (b :: x'); clear. induction l as [|a l IH]; simpl; intros H; [lra|].
      pose proof (H a (or_introl eq_refl)). assert (0 <= Rsum l) by (apply IH; intros; apply H; auto). lra.
    - left; apply Rinv_0_lt_compat, INR_pos; discriminate.
  Qed.

  Lemma std_affine c k (x : rvec) : x <> [] -> std_of (map (fun a => c * a + k) x) = Rabs c * std_of x.
  Proof.
    intros H; unfold std_of. rewrite mean_affine by auto. rewrite map_map.
    rewrite (map_ext _ (fun a => (c * c) * (a - mean_of x) ^ 2 + 0)) by (intros; ring).
    rewrite <- (map_map (fun a => (a - mean_of x) ^ 2) (fun b => (c * c) * b + 0)).
    rewrite mean_affine by (destruct x; [congruence|discriminate]). rewrite Rplus_0_r.
    rewrite sqrt_mult_alt by apply Rle_0_sqr. f_equal. apply sqrt_Rsqr_abs.
  Qed.

  Lemma Rsum_sq_nonneg m (x : rvec) : 0 <= Rsum (map (fun a => (a - m) ^ 2) x).
  Proof. induction x as [|b x IH]; cbn [map Rsum]; [lra|]. pose proof (pow2_ge_0 (b - m)); lra. Qed.
  Lemma Rsum_sq_zero m (x : rvec) : Rsum (map (fun a => (a - m) ^ 2) x) = 0 -> forall a, In a x -> a = m.
  Proof.
    induction x as [|b x IH]; intros Hs a Ha; [destruct Ha|].
    cbn [map Rsum] in Hs. pose proof (Rsum_sq_nonneg m x). pose proof (pow2_ge_0 (b - m)).
    destruct Ha as [->|Ha]; [|apply IH; auto; lra].
    assert (E : (a - m) * (a - m) = 0) by (simpl in *; lra). apply Rmult_integral in E; lra.
  Qed.

  Lemma std_pos (x : rvec) : ~ constant x -> 0 < std_of x.
  Proof.
    intros H. unfold std_of. apply sqrt_lt_R0.
    assert (Hx : x <> []) by (intros ->; apply H; intros a b []).
    pose proof (mean_nonneg (map (fun a => (a - mean_of x) ^ 2) x)) as Hn.
    destruct Hn as [Hp|Hz].
    - intros a Ha. apply in_map_iff in Ha as (b & <- & _). apply pow2_ge_0.
    - exact Hp.
    - exfalso. apply H. set (m := mean_of x) in *.
      assert (Hs : Rsum (map (fun a => (a - m) ^ 2) x) = 0).
      { unfold mean_of in Hz. rewrite map_length in Hz. pose proof (INR_pos x Hx) as HN.
        apply (Rmult_eq_compat_r (INR (length x))) in Hz. unfold Rdiv in Hz.
        rewrite Rmult_assoc, Rinv_l, Rmult_0_l, Rmult_1_r in Hz by lra. auto. }
      pose proof (Rsum_sq_zero m x Hs) as Hall.
      intros a b Ha Hb. rewrite (Hall a), (Hall b); auto.
  Qed.

  Lemma standardize_affine (x : rvec) :
    standardize x None None = map (fun a => / std_of x * a + - (mean_of x * / std_of x)) x.
  Proof.
    unfold standardize. rewrite mean_eq, std_eq. apply map_ext; intros a; simpl. unfold Rdiv; ring.
  Qed.

  Theorem C35_zscore : forall x : rvec, ~ constant x ->
    mean_of (standardize x None None) = 0 /\ std_of (standardize x None None) = 1.
  Proof.
    intros x H. pose proof (std_pos x H) as Hs.
    assert (Hx : x <> []) by (intros ->; apply H; intros a b []).
    rewrite standardize_affine, mean_affine, std_affine by auto. split; [ring|].
    rewrite Rabs_right by (left; apply Rinv_0_lt_compat; auto). apply Rinv_l; lra.
  Qed.

  Theorem C35_idempotent : forall x : rvec, ~ constant x ->
    standardize (standardize x None None) None None = standardize x None None.
  Proof.
    intros x H. destruct (C35_zscore x H) as (H1 & H2).
    rewrite (standardize_affine (standardize x None None)), H1, H2.
    rewrite <- (map_id (standardize x None None)) at 2. apply map_ext; intros a. field.
  Qed.

  Theorem C35_unit_invariance : forall (x : rvec) c k, ~ constant x -> c <> 0 ->
    standardize (map (fun a => c * a + k) x) None None =
      if Rlt_dec 0 c then standardize x None None else vneg (standardize x None None).
  Proof.
    intros x c k H Hc. pose proof (std_pos x H) as Hs.
    assert (Hx : x <> []) by (intros ->; apply H; intros a b []).
    rewrite !standardize_affine, mean_affine, std_affine by auto. rewrite map_map. unfold vneg.
    destruct (Rlt_dec 0 c) as [Hp|Hn].
    - rewrite Rabs_right by lra. apply map_ext; intros a. field; lra.
    - rewrite Rabs_left by lra. rewrite map_map. apply map_ext; intros a. field; lra.
  Qed.

  (** the default standardisation is undone with the mean and deviation of the data *)
  Theorem C34_C35_default_roundtrip : forall x : rvec, ~ constant x ->
    standardize_back (standardize x None None) (mean_of x) (std_of x) = x.
  Proof.
    intros x H. pose proof (std_pos x H) as Hs. unfold standardize, standardize_back. rewrite mean_eq, std_eq, map_map.
    transitivity (map (fun a => a) x); [|apply map_id]. apply map_ext; intros a; simpl. field; lra.
  Qed.

  Example C35_hypotheses : ~ constant [1; 2; 4].
  Proof. intros H. specialize (H 1 2 ltac:(simpl; auto) ltac:(simpl; auto)). lra. Qed.
End RProps.

From Coq Require Import PrimFloat.
(** C34 in float64 arithmetic: the round trip is not exact; 15 with scale 11 is a witness *)
Definition fsolve (A B : list (list float)) : option (list (list float)) := None.
#[local] Instance FI : Num float := FNum fsolve.
Theorem C34_float_roundtrip_refuted : exists (x : list float) (a b : float),
  standardize_back (standardize x (Some a) (Some b)) a b <> x.
Proof.
  exists [15%float], 0%float, 11%float.
  assert (Hc : standardize_back (standardize [15%float] (Some 0%float) (Some 11%float)) 0%float 11%float
                = [0x1.dffffffffffffp+3%float]) by (vm_compute; reflexivity).
  rewrite Hc. intros H. injection H as H. apply (f_equal (fun f => PrimFloat.eqb f 15%float)) in H.
  vm_compute in H. discriminate.
Qed.
