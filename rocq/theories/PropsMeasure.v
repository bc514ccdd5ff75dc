(** Property C64: error measures of long records: pieces, order of the samples, the best constant. *)
From Coq Require Import Reals Lra Psatz Permutation.
From Verif Require Import Py Num Numpy StructProofs RVec RMat Misc PropsMisc Preprocess PropsPCA PropsPreInv.
Open Scope R_scope.

Section Measures.
  Variable solve : list rvec -> list rvec -> option (list rvec).
  #[local] Hint Extern 0 (Num R) => exact (RNum solve) : typeclass_instances.

  Lemma map2_app2 {A B C} (f : A -> B -> C) u1 u2 v1 v2 : length u1 = length v1 ->
    map2 f (u1 ++ u2) (v1 ++ v2) = map2 f u1 v1 ++ map2 f u2 v2.
  Proof. revert v1; induction u1 as [|a u1 IH]; intros [|b v1] H; try discriminate; auto. simpl. rewrite IH; auto. Qed.
  Lemma Rsum_app2 u v : Rsum (u ++ v) = Rsum u + Rsum v.
  Proof. induction u as [|a u IH]; cbn [app Rsum]; [ring|rewrite IH; ring]. Qed.

  (** the measures of a record in two pieces are the averages, weighted by length, of the measures of the pieces;
      logSE, a series, is the two series one after the other *)
  Theorem C64_pieces : forall (u1 v1 u2 v2 : rvec) m1 a1 r1 m2 a2 r2,
    length u1 = length v1 -> length u2 = length v2 -> u1 <> [] -> u2 <> [] ->
    MSE u1 (ASeries v1) = Ok m1 -> MSE u2 (ASeries v2) = Ok m2 ->
    MAE u1 (ASeries v1) = Ok a1 -> MAE u2 (ASeries v2) = Ok a2 ->
    RMSE u1 (ASeries v1) = Ok r1 -> RMSE u2 (ASeries v2) = Ok r2 ->
    let N1 := INR (length u1) in let N2 := INR (length u2) in
    MSE (u1 ++ u2) (ASeries (v1 ++ v2)) = Ok ((N1 * m1 + N2 * m2) / (N1 + N2)) /\
    MAE (u1 ++ u2) (ASeries (v1 ++ v2)) = Ok ((N1 * a1 + N2 * a2) / (N1 + N2)) /\
    RMSE (u1 ++ u2) (ASeries (v1 ++ v2)) = Ok (sqrt ((N1 * (r1 * r1) + N2 * (r2 * r2)) / (N1 + N2))).
  Proof.
    intros u1 v1 u2 v2 m1 a1 r1 m2 a2 r2 H1 H2 Hn1 Hn2.
    rewrite !MSE_val, !MAE_val, !RMSE_val by (auto; rewrite !app_length; lia).
    intros [= <-] [= <-] [= <-] [= <-] [= <-] [= <-] N1 N2.
    pose proof (nonempty_INR u1 Hn1) as P1. pose proof (nonempty_INR u2 Hn2) as P2. fold N1 in P1. fold N2 in P2.
    assert (EM : spec_MSE (u1 ++ u2) (v1 ++ v2) = (N1 * spec_MSE u1 v1 + N2 * spec_MSE u2 v2) / (N1 + N2)).
    { unfold spec_MSE. rewrite map2_app2, Rsum_app2, app_length, plus_INR by auto. fold N1 N2. field. lra. }
    rewrite !sqrt_sqrt by (apply spec_MSE_nonneg; auto). rewrite EM. split; [reflexivity|]. split; [|reflexivity].
    f_equal. unfold spec_MAE. rewrite map2_app2, Rsum_app2, app_length, plus_INR by auto. fold N1 N2. field. lra.
  Qed.
  Theorem C64_logSE_pieces : forall (u1 v1 u2 v2 : rvec) l1 l2,
    length u1 = length v1 -> length u2 = length v2 ->
    logSE u1 (ASeries v1) = Ok l1 -> logSE u2 (ASeries v2) = Ok l2 ->
    logSE (u1 ++ u2) (ASeries (v1 ++ v2)) = Ok (l1 ++ l2).
  Proof.
    intros u1 v1 u2 v2 l1 l2 H1 H2. unfold logSE, get_valid_error. rewrite !app_length, H1, H2, !Nat.eqb_refl. cbn [rmap].
    intros [= <-] [= <-]. rewrite map2_app2, map_app by auto. reflexivity.
  Qed.
  (** so a measure of the whole lies between the measures of the pieces *)
  Corollary C64_between : forall (u1 v1 u2 v2 : rvec) m1 m2 m, length u1 = length v1 -> length u2 = length v2 -> u1 <> [] -> u2 <> [] ->
    MSE u1 (ASeries v1) = Ok m1 -> MSE u2 (ASeries v2) = Ok m2 -> MSE (u1 ++ u2) (ASeries (v1 ++ v2)) = Ok m ->
    Rmin m1 m2 <= m <= Rmax m1 m2.
  Proof.
    intros u1 v1 u2 v2 m1 m2 m H1 H2 Hn1 Hn2 E1 E2 E.
    destruct (C64_pieces u1 v1 u2 v2 m1 _ _ m2 _ _ H1 H2 Hn1 Hn2 E1 E2 (MAE_val solve u1 v1 H1) (MAE_val solve u2 v2 H2)
      (RMSE_val solve u1 v1 H1) (RMSE_val solve u2 v2 H2)) as (E' & _).
    rewrite E in E'. injection E' as ->.
    pose proof (nonempty_INR u1 Hn1) as P1. pose proof (nonempty_INR u2 Hn2) as P2.
    set (a := INR (length u1)) in *. set (b := INR (length u2)) in *.
    assert (Hm : (a * m1 + b * m2) / (a + b) * (a + b) = a * m1 + b * m2) by (field; lra).
    set (q := (a * m1 + b * m2) / (a + b)) in *.
    unfold Rmin, Rmax. destruct (Rle_dec m1 m2); split.
    - apply Rnot_lt_le; intros Hq. nra.
    - apply Rnot_lt_le; intros Hq. nra.
    - apply Rnot_lt_le; intros Hq. nra.
    - apply Rnot_lt_le; intros Hq. nra.
  Qed.

  (** listing the samples (of both series) in another order changes nothing; logSE is listed in that order *)
  Lemma map2_reordered {A} (f : R -> R -> A) (dA : A) (u v : rvec) s N : length u = N -> length v = N -> reordering N s ->
    (forall i, (i < N)%nat -> nth i (map2 f u v) dA = f (nth i u 0) (nth i v 0)) ->
    map2 f (reordered 0 s u) (reordered 0 s v) = reordered dA s (map2 f u v).
  Proof.
    intros Hu Hv Hs Hn. unfold reordered.
    assert (HF : Forall (fun i => (i < N)%nat) s).
    { apply Forall_forall. intros i Hi. apply (Permutation_in _ Hs), in_seq in Hi. lia. }
    clear Hs. induction s as [|i s IH]; auto. pose proof (Forall_inv HF) as Hi. cbv beta in Hi. apply Forall_inv_tail in HF.
    cbn [map map2]. rewrite IH, Hn; auto.
  Qed.
  Lemma nth_map2R {A} (f : R -> R -> A) dA (u v : rvec) i : (i < length u)%nat -> length u = length v ->
    nth i (map2 f u v) dA = f (nth i u 0) (nth i v 0).
  Proof.
    revert v i; induction u as [|a u IH]; intros [|b v] [|i] Hi Hl; simpl in Hi, Hl; try lia; auto.
    cbn [map2]. apply (IH v i); lia.
  Qed.
  Lemma reordered_perm {A} (d : A) N s (l : list A) : length l = N -> reordering N s -> Permutation (reordered d s l) l.
  Proof.
    intros Hl Hs. unfold reordered. apply (Permutation_trans (l' := map (fun i => nth i l d) (seq 0 N))).
    - apply Permutation_map, Hs.
    - rewrite <- Hl, map_nth_seq. apply Permutation_refl.
  Qed.
  Lemma reordered_length {A} (d : A) N s (l : list A) : reordering N s -> length (reordered d s l) = N.
  Proof. intros Hs. unfold reordered. rewrite map_length. apply (reordering_length N s Hs). Qed.
  Theorem C64_reordered : forall N (u v : rvec) s l, length u = N -> length v = N -> reordering N s ->
    let u' := reordered 0 s u in let v' := reordered 0 s v in
    MSE u' (ASeries v') = MSE u (ASeries v) /\ MAE u' (ASeries v') = MAE u (ASeries v) /\ RMSE u' (ASeries v') = RMSE u (ASeries v) /\
    (logSE u (ASeries v) = Ok l -> logSE u' (ASeries v') = Ok (reordered 0 s l)).
  Proof.
    intros N u v s l Hu Hv Hs u' v'.
    assert (Hu' : length u' = N) by (apply reordered_length; auto). assert (Hv' : length v' = N) by (apply reordered_length; auto).
    assert (Hsum : forall f : R -> R -> R, Rsum (map2 f u' v') = Rsum (map2 f u v)).
    { intros f. unfold u', v'. rewrite (map2_reordered f 0 u v s N Hu Hv Hs).
      - apply Rsum_perm, (reordered_perm 0 N); auto. rewrite map2_len, Hu, Hv. apply Nat.min_id.
      - intros i Hi. apply nth_map2R; congruence. }
    rewrite !MSE_val, !MAE_val, !RMSE_val by congruence. unfold spec_MSE, spec_MAE. rewrite !Hsum, Hu', Hu.
    repeat (split; [reflexivity|]).
    unfold logSE, get_valid_error. rewrite Hu, Hv, Hu', Hv', Nat.eqb_refl. cbn [rmap]. intros E. apply (f_equal (fun r => match r with Ok a => a | Err _ => [] end)) in E.
    subst l. f_equal. unfold u', v'. rewrite (map2_reordered nsub 0 u v s N Hu Hv Hs) by (intros i Hi; apply nth_map2R; congruence).
    unfold reordered. rewrite map_map. apply map_ext_in. intros i Hi.
    apply (Permutation_in _ Hs), in_seq in Hi.
    rewrite (map_nth_lt _ _ _ 0); [reflexivity|]. rewrite map2_len. lia.
  Qed.

  (** predicting a constant: the mean of the series is the best one, and every other constant pays its squared
      distance from the mean *)
  Theorem C64_best_constant : forall (u : rvec) c m, u <> [] ->
    let N := length u in let avg := smean N (fun k => nth k u 0) in
    MSE u (ASeries (repeat c N)) = Ok m ->
    exists m0, MSE u (ASeries (repeat avg N)) = Ok m0 /\ m = m0 + (c - avg) ^ 2 /\ m0 <= m /\ (m = m0 -> c = avg).
  Proof.
    intros u c m Hn N avg. rewrite !MSE_val by (rewrite repeat_length; auto). intros [= <-].
    eexists; split; [reflexivity|].
    assert (HN : 0 < INR N) by (apply nonempty_INR; auto).
    assert (Hs : Rsum u = INR N * avg).
    { unfold avg, smean. rewrite (Rsum_sumn u). fold N. field. lra. }
    assert (Hsq : forall a, Rsum (map2 (fun x y => (x - y) ^ 2) u (repeat a N)) = Rsum (map (fun x => x * x) u) - 2 * a * Rsum u + INR N * (a * a)).
    { intros a. unfold N. clear. induction u as [|b u IH]; [simpl; ring|].
      cbn [length repeat map2 map Rsum]. rewrite IH, S_INR. ring. }
    assert (E : spec_MSE u (repeat c N) = spec_MSE u (repeat avg N) + (c - avg) ^ 2).
    { unfold spec_MSE. fold N. rewrite !Hsq, Hs. field. lra. }
    split; auto. pose proof (pow2_ge_0 (c - avg)). split; [lra|].
    intros E'. assert (Hz : (c - avg) ^ 2 = 0) by lra. assert (Hz' : (c - avg) * (c - avg) = 0) by (simpl in Hz; lra).
    apply Rmult_integral in Hz'. lra.
  Qed.
  (** errors computed on standardized data (same offset and scale for both series) are the errors of the data in
      units of the scale; after standardize_back they are the original errors again *)
  Theorem C64_standardized : forall (u v : rvec) o s m a r, length u = length v -> s <> 0 ->
    MSE u (ASeries v) = Ok m -> MAE u (ASeries v) = Ok a -> RMSE u (ASeries v) = Ok r ->
    let su := standardize u (Some o) (Some s) in let sv := standardize v (Some o) (Some s) in
    MSE su (ASeries sv) = Ok (m / (s * s)) /\ MAE su (ASeries sv) = Ok (a / Rabs s) /\ RMSE su (ASeries sv) = Ok (r / Rabs s) /\
    MSE (standardize_back su o s) (ASeries (standardize_back sv o s)) = Ok m.
  Proof.
    intros u v o s m a r Hl Hs Hm Ha Hr su sv.
    assert (Esu : forall w, standardize w (Some o) (Some s) = vsc (/ s) (map (fun b => b + - o) w)).
    { intros w. unfold standardize, vsc. rewrite map_map. apply map_ext; intros b. cbn. unfold Rdiv, Rminus. ring. }
    destruct (C32_translation solve u v (- o) Hl) as (T1 & T2 & T3). cbv zeta in T1, T2, T3.
    rewrite <- T1 in Hm. rewrite <- T2 in Ha. rewrite <- T3 in Hr.
    destruct (C32_scaling solve (map (fun b => b + - o) u) (map (fun b => b + - o) v) (/ s) m a r) as (S1 & S2 & S3); auto.
    { rewrite !map_length; auto. }
    unfold su, sv. rewrite !Esu. rewrite S1, S2, S3. rewrite Rabs_inv.
    repeat split; try (f_equal; field; auto; try (split; auto); apply Rabs_no_R0; auto).
    assert (Eb : forall w, standardize_back (vsc (/ s) (map (fun b => b + - o) w)) o s = w).
    { intros w. unfold standardize_back, vsc. rewrite !map_map. rewrite <- (map_id w) at 2. apply map_ext; intros b. cbn. field; auto. }
    rewrite !Eb, <- T1. auto.
  Qed.

  Example C64_example : MSE ([1; 3] ++ [5]) (ASeries ([0; 1] ++ [2])) = Ok (14 / 3) /\
    MSE [1; 3] (ASeries [0; 1]) = Ok (5 / 2) /\ MSE [5] (ASeries [2]) = Ok 9 /\ reordering 3 [2; 0; 1]%nat /\
    MSE [1; 3; 5] (ASeries (repeat 3 3)) = Ok (8 / 3).
  Proof.
    rewrite !MSE_val by reflexivity. unfold spec_MSE. cbn [app map2 Rsum length repeat]. cbn [INR].
    repeat (split; [first [f_equal; field | idtac]|]).
    - unfold reordering. cbn [seq]. apply NoDup_Permutation.
      + repeat constructor; cbn [In]; lia.
      + repeat constructor; cbn [In]; lia.
      + intros i; cbn [In]; lia.
    - f_equal. field.
  Qed.
End Measures.
