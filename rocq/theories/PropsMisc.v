(** Properties C31-C33: the error measures of padasip.misc. *)
From Coq Require Import Reals Lra Psatz QArith.
From Verif Require Import Py Num NumQ Numpy RVec Misc PropsRun.
Open Scope nat_scope.

(** ** C31, any arithmetic *)
Section Any.
  Context {T : Type} {NT : Num T}.
  Notation vec := (list T).

  (** the elementwise difference of two series *)
  Definition difference (u v : vec) : vec := map2 nsub u v.
  (** the default second argument *)
  Definition no_second : arg2 T := AInt (-1)%Z.

  Theorem C31_two_series_or_error : forall x1 x2 : vec, length x1 = length x2 ->
    MSE x1 (ASeries x2) = MSE (difference x1 x2) no_second /\
    MAE x1 (ASeries x2) = MAE (difference x1 x2) no_second /\
    RMSE x1 (ASeries x2) = RMSE (difference x1 x2) no_second /\
    logSE x1 (ASeries x2) = logSE (difference x1 x2) no_second.
  Proof.
    intros x1 x2 H; unfold MSE, MAE, RMSE, logSE, get_valid_error, no_second.
    rewrite H, Nat.eqb_refl; repeat split; reflexivity.
  Qed.

  Theorem C31_length_mismatch : forall x1 x2 : vec, length x1 <> length x2 ->
    MSE x1 (ASeries x2) = Err ValueError /\ MAE x1 (ASeries x2) = Err ValueError /\
    RMSE x1 (ASeries x2) = Err ValueError /\ logSE x1 (ASeries x2) = Err ValueError.
  Proof.
    intros x1 x2 H; unfold MSE, MAE, RMSE, logSE, get_valid_error.
    apply Nat.eqb_neq in H; rewrite H; repeat split; reflexivity.
  Qed.

  (** the int -1 means that x1 is the error; any other scalar is rejected *)
  Theorem C31_scalar_second : forall (x1 : vec) (a : arg2 T),
    match a with ASeries _ => True | AInt z => z <> (-1)%Z | AScalar _ => True end ->
    match a with ASeries _ => True | _ =>
      MSE x1 a = Err TypeError /\ MAE x1 a = Err TypeError /\ RMSE x1 a = Err TypeError /\ logSE x1 a = Err TypeError
    end.
  Proof.
    intros x1 [z|s|v] H; auto; unfold MSE, MAE, RMSE, logSE, get_valid_error.
    apply Z.eqb_neq in H; rewrite H; repeat split; reflexivity.
  Qed.

  Theorem C31_sentinel : forall x1 : vec,
    exists m a r l, MSE x1 no_second = Ok m /\ MAE x1 no_second = Ok a /\ RMSE x1 no_second = Ok r /\
      logSE x1 no_second = Ok l /\ length l = length x1.
  Proof. intros x1; do 4 eexists; repeat split. apply map_length. Qed.

  Theorem C31_dispatch : forall x1 x2 (f : string),
    get_mean_error x1 x2 f =
      (if string_dec f "MSE" then MSE x1 x2
       else if string_dec f "MAE" then MAE x1 x2
       else if string_dec f "RMSE" then RMSE x1 x2
       else Err (A := T) ValueError).
  Proof.
    intros; unfold get_mean_error.
    repeat match goal with |- context [string_dec ?a ?b] => destruct (string_dec a b) end; subst; auto.
    repeat match goal with H : f <> _ |- _ => apply String.eqb_neq in H; rewrite H; clear H end. reflexivity.
  Qed.
End Any.

(** ** C32, C33: exact reals *)
Section RProps.
  Variable solve : list rvec -> list rvec -> option (list rvec).
  #[local] Hint Extern 0 (Num R) => exact (RNum solve) : typeclass_instances.
  Local Open Scope R_scope.

  (** Specification: the textbook definitions *)
  Definition spec_MSE (u v : rvec) : R := Rsum (map2 (fun a b => (a - b) ^ 2) u v) / INR (length u).
  Definition spec_MAE (u v : rvec) : R := Rsum (map2 (fun a b => Rabs (a - b)) u v) / INR (length u).

  Lemma sum_sq (u v : rvec) : Rdot (map2 Rminus u v) (map2 Rminus u v) = Rsum (map2 (fun a b => (a - b) ^ 2) u v).
  Proof. revert v; induction u as [|a u IH]; intros [|b v]; cbn [map2 Rdot Rsum]; auto. rewrite IH; ring. Qed.
  Lemma sum_abs (u v : rvec) : Rsum (map Rabs (map2 Rminus u v)) = Rsum (map2 (fun a b => Rabs (a - b)) u v).
  Proof. revert v; induction u as [|a u IH]; intros [|b v]; simpl; auto. rewrite IH; ring. Qed.

  Lemma MSE_val u v : length u = length v -> MSE u (ASeries v) = Ok (spec_MSE u v).
  Proof.
    intros H; unfold MSE, get_valid_error; rewrite H, Nat.eqb_refl; cbn [rmap]. f_equal.
    unfold spec_MSE, nofnat. change (@nsub R _) with Rminus. simpl. rewrite sum_sq, map2_len, INR_IZR_INZ.
    do 2 f_equal. f_equal. lia.
  Qed.
  Lemma MAE_val u v : length u = length v -> MAE u (ASeries v) = Ok (spec_MAE u v).
  Proof.
    intros H; unfold MAE, get_valid_error; rewrite H, Nat.eqb_refl; cbn [rmap]. f_equal.
    unfold spec_MAE, nofnat. change (@nsub R _) with Rminus. simpl. rewrite sum_abs, map2_len, INR_IZR_INZ.
    do 2 f_equal. f_equal. lia.
  Qed.
  Lemma RMSE_val u v : length u = length v -> RMSE u (ASeries v) = Ok (sqrt (spec_MSE u v)).
  Proof.
    intros H. pose proof (MSE_val u v H) as E. unfold RMSE, MSE in *.
    destruct (get_valid_error u (ASeries v)); [|discriminate]. cbn [rmap] in *. injection E as <-. reflexivity.
  Qed.

  Lemma nonempty_INR (u : rvec) : u <> [] -> 0 < INR (length u).
  Proof. intros H; apply lt_0_INR; destruct u; [congruence|simpl; lia]. Qed.

  Lemma sum_nonneg f (u v : rvec) : (forall a b, 0 <= f a b) -> 0 <= Rsum (map2 f u v).
  Proof. intros H; revert v; induction u as [|a u IH]; intros [|b v]; simpl; try lra. specialize (IH v); specialize (H a b); lra. Qed.

  Lemma sum_zero f (u v : rvec) : length u = length v -> (forall a b, 0 <= f a b) -> (forall a b, f a b = 0 -> a = b) ->
    Rsum (map2 f u v) = 0 -> u = v.
  Proof.
    intros Hl Hp Hz; revert v Hl; induction u as [|a u IH]; intros [|b v] Hl Hs; simpl in *; try discriminate; auto.
    pose proof (sum_nonneg f u v Hp). pose proof (Hp a b).
    f_equal; [apply Hz; lra|apply IH; [lia|lra]].
  Qed.
  Lemma sum_diag f (u : rvec) : (forall a, f a a = 0) -> Rsum (map2 f u u) = 0.
  Proof. intros H; induction u as [|a u IH]; simpl; auto. rewrite H, IH; ring. Qed.

  Lemma div_zero_iff a b : 0 < b -> (a / b = 0 <-> a = 0).
  Proof.
    intros Hb; split; intros H.
    - apply (Rmult_eq_compat_r b) in H. unfold Rdiv in H. rewrite Rmult_assoc, Rinv_l, Rmult_0_l, Rmult_1_r in H by lra. exact H.
    - rewrite H; unfold Rdiv; ring.
  Qed.

  Lemma spec_MSE_nonneg u v : u <> [] -> 0 <= spec_MSE u v.
  Proof.
    intros H; unfold spec_MSE. apply Rmult_le_pos; [apply sum_nonneg; intros; apply pow2_ge_0|].
    left; apply Rinv_0_lt_compat, nonempty_INR; auto.
  Qed.
  Lemma spec_MAE_nonneg u v : u <> [] -> 0 <= spec_MAE u v.
  Proof.
    intros H; unfold spec_MAE. apply Rmult_le_pos; [apply sum_nonneg; intros; apply Rabs_pos|].
    left; apply Rinv_0_lt_compat, nonempty_INR; auto.
  Qed.
  Lemma spec_MSE_zero u v : u <> [] -> length u = length v -> (spec_MSE u v = 0 <-> u = v).
  Proof.
    intros H Hl; unfold spec_MSE. rewrite div_zero_iff by (apply nonempty_INR; auto). split.
    - apply sum_zero; auto; intros a b; [apply pow2_ge_0|]. intros E. assert (E' : (a - b) * (a - b) = 0) by (simpl in E; lra). apply Rmult_integral in E'. lra.
    - intros <-. apply sum_diag; intros; ring.
  Qed.
  Lemma spec_MAE_zero u v : u <> [] -> length u = length v -> (spec_MAE u v = 0 <-> u = v).
  Proof.
    intros H Hl; unfold spec_MAE. rewrite div_zero_iff by (apply nonempty_INR; auto). split.
    - apply sum_zero; auto; intros a b; [apply Rabs_pos|].
      intros E. destruct (Req_dec (a - b) 0) as [|E']; [lra|]. apply Rabs_no_R0 in E'; contradiction.
    - intros <-. apply sum_diag; intros. replace (a - a) with 0 by ring. apply Rabs_R0.
  Qed.

  Theorem C32_values : forall u v : rvec, length u = length v ->
    MSE u (ASeries v) = Ok (spec_MSE u v) /\ MAE u (ASeries v) = Ok (spec_MAE u v) /\
    RMSE u (ASeries v) = Ok (sqrt (spec_MSE u v)).
  Proof. auto using MSE_val, MAE_val, RMSE_val. Qed.

  Theorem C32_nonneg_and_zero : forall (u v : rvec) m a r, u <> [] -> length u = length v ->
    MSE u (ASeries v) = Ok m -> MAE u (ASeries v) = Ok a -> RMSE u (ASeries v) = Ok r ->
    0 <= m /\ 0 <= a /\ 0 <= r /\ (m = 0 <-> u = v) /\ (a = 0 <-> u = v) /\ (r = 0 <-> u = v) /\ r * r = m.
  Proof.
    intros u v m a r Hn Hl. rewrite MSE_val, MAE_val, RMSE_val by assumption. intros [= <-] [= <-] [= <-].
    pose proof (spec_MSE_nonneg u v Hn) as Hm.
    split; [exact Hm|]. split; [apply spec_MAE_nonneg; auto|]. split; [apply sqrt_pos|].
    split; [apply spec_MSE_zero; auto|]. split; [apply spec_MAE_zero; auto|].
    split; [|apply sqrt_sqrt; auto].
    rewrite <- (spec_MSE_zero u v Hn Hl). split; [apply sqrt_eq_0; auto|intros ->; apply sqrt_0].
  Qed.

  Lemma map2_swap (f g : R -> R -> R) (u v : rvec) : (forall a b, f a b = g b a) -> map2 f u v = map2 g v u.
  Proof. intros H; revert v; induction u as [|a u IH]; intros [|b v]; simpl; auto. rewrite H, IH; auto. Qed.
  Lemma map2_ext2 (f g : R -> R -> R) (h : R -> R) (u v : rvec) : (forall a b, f (h a) (h b) = g a b) ->
    map2 f (map h u) (map h v) = map2 g u v.
  Proof. intros H; revert v; induction u as [|a u IH]; intros [|b v]; simpl; auto. rewrite H, IH; auto. Qed.

  Theorem C32_symmetric : forall u v : rvec, length u = length v ->
    MSE u (ASeries v) = MSE v (ASeries u) /\ MAE u (ASeries v) = MAE v (ASeries u) /\ RMSE u (ASeries v) = RMSE v (ASeries u).
  Proof.
    intros u v H. rewrite !MSE_val, !MAE_val, !RMSE_val by auto. unfold spec_MSE, spec_MAE. rewrite H.
    rewrite (map2_swap (fun a b => (a - b) ^ 2) (fun a b => (a - b) ^ 2)) by (intros; ring).
    rewrite (map2_swap (fun a b => Rabs (a - b)) (fun a b => Rabs (a - b)) u v) by (intros; apply Rabs_minus_sym).
    auto.
  Qed.

  Theorem C32_translation : forall (u v : rvec) c, length u = length v ->
    let s := map (fun a => a + c) in
    MSE (s u) (ASeries (s v)) = MSE u (ASeries v) /\ MAE (s u) (ASeries (s v)) = MAE u (ASeries v) /\
    RMSE (s u) (ASeries (s v)) = RMSE u (ASeries v).
  Proof.
    intros u v c H s. assert (Hs : length (s u) = length (s v)) by (unfold s; rewrite !map_length; auto).
    rewrite !MSE_val, !MAE_val, !RMSE_val by auto. unfold spec_MSE, spec_MAE, s.
    rewrite (map2_ext2 _ (fun a b => (a - b) ^ 2)) by (intros; ring).
    rewrite (map2_ext2 _ (fun a b => Rabs (a - b))) by (intros; f_equal; ring).
    rewrite map_length; auto.
  Qed.

  Lemma Rsum_scale f g c (u v : rvec) : (forall a b, f (c * a) (c * b) = g * f a b) ->
    Rsum (map2 f (vsc c u) (vsc c v)) = g * Rsum (map2 f u v).
  Proof. intros H; unfold vsc; revert v; induction u as [|a u IH]; intros [|b v]; cbn [map map2 Rsum]; try ring. rewrite H, IH; ring. Qed.

  Theorem C32_scaling : forall (u v : rvec) c m a r, length u = length v ->
    MSE u (ASeries v) = Ok m -> MAE u (ASeries v) = Ok a -> RMSE u (ASeries v) = Ok r ->
    MSE (vsc c u) (ASeries (vsc c v)) = Ok (c * c * m) /\
    MAE (vsc c u) (ASeries (vsc c v)) = Ok (Rabs c * a) /\
    RMSE (vsc c u) (ASeries (vsc c v)) = Ok (Rabs c * r).
  Proof.
    intros u v c m a r H. assert (Hs : length (vsc c u) = length (vsc c v)) by (rewrite !vsc_length; auto).
    rewrite !MSE_val, !MAE_val, !RMSE_val by auto. intros [= <-] [= <-] [= <-].
    assert (Hm : spec_MSE (vsc c u) (vsc c v) = c * c * spec_MSE u v).
    { unfold spec_MSE. rewrite (Rsum_scale _ (c * c)) by (intros; ring). rewrite vsc_length. unfold Rdiv; ring. }
    rewrite Hm. split; [reflexivity|]. split.
    - f_equal. unfold spec_MAE. rewrite (Rsum_scale _ (Rabs c)).
      + rewrite vsc_length. unfold Rdiv; ring.
      + intros; rewrite <- Rabs_mult; f_equal; ring.
    - f_equal. rewrite sqrt_mult_alt by apply Rle_0_sqr. f_equal. apply sqrt_Rsqr_abs.
  Qed.

  Lemma sum_abs_tri (u v w : rvec) : length u = length v -> length v = length w ->
    Rsum (map2 (fun a b => Rabs (a - b)) u w) <=
    Rsum (map2 (fun a b => Rabs (a - b)) u v) + Rsum (map2 (fun a b => Rabs (a - b)) v w).
  Proof.
    revert v w; induction u as [|a u IH]; intros [|b v] [|c w] H1 H2; simpl in *; try discriminate; try lra.
    specialize (IH v w ltac:(lia) ltac:(lia)).
    pose proof (Rabs_triang (a - b) (b - c)). replace (a - b + (b - c)) with (a - c) in H by ring. lra.
  Qed.

  Lemma sq_as_norm (u v : rvec) : Rsum (map2 (fun a b => (a - b) ^ 2) u v) = distsq u v.
  Proof. unfold distsq, normsq, vsub. rewrite sum_sq; reflexivity. Qed.

  Lemma minkowski p q : length p = length q -> sqrt (normsq (vadd p q)) <= sqrt (normsq p) + sqrt (normsq q).
  Proof.
    intros Hl. pose proof (normsq_nonneg p) as Hp. pose proof (normsq_nonneg q) as Hq.
    pose proof (sqrt_pos (normsq p)). pose proof (sqrt_pos (normsq q)).
    apply Rsqr_incr_0_var; [|lra]. rewrite Rsqr_plus.
    rewrite !Rsqr_sqrt by (auto; apply normsq_nonneg). rewrite normsq_vadd by auto.
    assert (Hc : Rdot p q <= sqrt (normsq p) * sqrt (normsq q)).
    { rewrite <- sqrt_mult by auto. destruct (Rle_lt_dec (Rdot p q) 0) as [Hn|Hpos].
      - pose proof (sqrt_pos (normsq p * normsq q)); lra.
      - apply Rsqr_incr_0_var; [|apply sqrt_pos]. rewrite Rsqr_sqrt by (apply Rmult_le_pos; auto).
        apply Cauchy_Schwarz. }
    lra.
  Qed.

  Lemma vsub_split (u v w : rvec) : length u = length v -> length v = length w -> vsub u w = vadd (vsub u v) (vsub v w).
  Proof.
    revert v w; induction u as [|a u IH]; intros [|b v] [|c w] H1 H2; simpl in *; try discriminate; auto.
    unfold vsub, vadd in *; simpl. rewrite (IH v w) by lia. f_equal. ring.
  Qed.

  Theorem C32_triangle : forall (u v w : rvec) a1 a2 a3 r1 r2 r3, u <> [] -> length u = length v -> length v = length w ->
    MAE u (ASeries w) = Ok a1 -> MAE u (ASeries v) = Ok a2 -> MAE v (ASeries w) = Ok a3 ->
    RMSE u (ASeries w) = Ok r1 -> RMSE u (ASeries v) = Ok r2 -> RMSE v (ASeries w) = Ok r3 ->
    a1 <= a2 + a3 /\ r1 <= r2 + r3.
  Proof.
    intros u v w a1 a2 a3 r1 r2 r3 Hn H1 H2. rewrite !MAE_val, !RMSE_val by congruence.
    intros [= <-] [= <-] [= <-] [= <-] [= <-] [= <-].
    pose proof (nonempty_INR u Hn) as HN. split.
    - unfold spec_MAE. rewrite <- H1. unfold Rdiv. rewrite <- Rmult_plus_distr_r.
      apply Rmult_le_compat_r; [left; apply Rinv_0_lt_compat; auto|]. apply sum_abs_tri; auto.
    - unfold spec_MSE. rewrite <- H1, !sq_as_norm.
      rewrite !sqrt_div_alt by auto. unfold Rdiv. rewrite <- Rmult_plus_distr_r.
      apply Rmult_le_compat_r; [left; apply Rinv_0_lt_compat, sqrt_lt_R0; auto|].
      unfold distsq. rewrite (vsub_split u v w) by auto. apply minkowski.
      rewrite (vsub_length u v (length u)), (vsub_length v w (length u)); auto; congruence.
  Qed.

  (** MSE is not a distance *)
  Theorem C32_MSE_triangle_refuted : exists (u v w : rvec) m1 m2 m3,
    MSE u (ASeries w) = Ok m1 /\ MSE u (ASeries v) = Ok m2 /\ MSE v (ASeries w) = Ok m3 /\ m1 > m2 + m3.
  Proof.
    exists [0], [1], [2]. do 3 eexists. repeat split; simpl. lra.
  Qed.

  (** *** C33 *)
  Lemma sum_abs_sq (e : rvec) : (Rsum (map Rabs e)) ^ 2 <= INR (length e) * Rdot e e.
  Proof.
    pose proof (Cauchy_Schwarz (map Rabs e) (repeat 1 (length e))) as H.
    assert (H1 : Rdot (map Rabs e) (repeat 1 (length e)) = Rsum (map Rabs e)).
    { clear. induction e as [|a e IH]; simpl; auto. rewrite IH; ring. }
    assert (H2 : normsq (map Rabs e) = Rdot e e).
    { clear. unfold normsq; induction e as [|a e IH]; simpl; auto. rewrite IH. rewrite <- Rabs_mult, (Rabs_right (a * a)); [ring|].
      apply Rle_ge, Rle_0_sqr. }
    assert (H3 : forall k, normsq (repeat 1 k) = INR k).
    { clear. unfold normsq; induction k as [|k IH]; [reflexivity|]. rewrite S_INR. cbn [repeat Rdot]. rewrite IH; ring. }
    rewrite H1, H2, H3 in H. replace (Rsum (map Rabs e) ^ 2) with (Rsum (map Rabs e) * Rsum (map Rabs e)) by ring. lra.
  Qed.

  Lemma sum_sq_abs (e : rvec) : Rdot e e <= (Rsum (map Rabs e)) ^ 2.
  Proof.
    induction e as [|a e IH]; simpl; [lra|].
    assert (0 <= Rsum (map Rabs e)) by (clear; induction e as [|b e IH]; simpl; [lra|]; pose proof (Rabs_pos b); lra).
    pose proof (Rabs_pos a). replace (a * a) with (Rabs a * Rabs a).
    - simpl in IH; nra.
    - rewrite <- Rabs_mult; apply Rabs_right, Rle_ge, Rle_0_sqr.
  Qed.

  Lemma max_abs (e : rvec) : e <> [] -> exists i, (i < length e)%nat /\ forall j, (j < length e)%nat -> Rabs (nth j e 0) <= Rabs (nth i e 0).
  Proof.
    induction e as [|a e IH]; [congruence|]. intros _. destruct e as [|b e].
    - exists 0%nat. split; [simpl; lia|]. intros [|j] Hj; simpl in *; [lra|lia].
    - destruct IH as (i & Hi & Hm); [discriminate|].
      destruct (Rle_lt_dec (Rabs a) (Rabs (nth i (b :: e) 0))) as [Hle|Hlt].
      + exists (S i). split; [simpl in *; lia|]. intros [|j] Hj; [exact Hle|]. apply Hm. simpl in *; lia.
      + exists 0%nat. split; [simpl; lia|]. intros [|j] Hj; [simpl; lra|].
        change (Rabs (nth j (b :: e) 0) <= Rabs a). specialize (Hm j). simpl in Hj. assert (j < length (b :: e))%nat by (simpl; lia).
        specialize (Hm H). lra.
  Qed.

  Lemma dot_bound (e : rvec) M : (forall j, (j < length e)%nat -> Rabs (nth j e 0) <= M) -> Rdot e e <= INR (length e) * (M * M).
  Proof.
    induction e as [|a e IH]; [simpl; lra|]. intros H. cbn [length Rdot]. rewrite S_INR.
    pose proof (H 0%nat ltac:(simpl; lia)) as H0. simpl in H0.
    assert (Hr : forall j, (j < length e)%nat -> Rabs (nth j e 0) <= M) by (intros j Hj; apply (H (S j)); simpl; lia).
    specialize (IH Hr). pose proof (Rabs_pos a).
    assert (a * a <= M * M).
    { replace (a * a) with (Rabs a * Rabs a) by (rewrite <- Rabs_mult; apply Rabs_right, Rle_ge, Rle_0_sqr). nra. }
    lra.
  Qed.

  Theorem C33_ordering : forall (e : rvec) m a r, e <> [] ->
    MSE e no_second = Ok m -> MAE e no_second = Ok a -> RMSE e no_second = Ok r ->
    a <= r /\ a * a <= m /\ r <= sqrt (INR (length e)) * a /\
    (exists i, (i < length e)%nat /\ r <= Rabs (nth i e 0)) /\
    (forall M, (forall j, (j < length e)%nat -> Rabs (nth j e 0) <= M) -> r <= M).
  Proof.
    intros e m a r Hn Hm Ha Hr. pose proof (nonempty_INR e Hn) as HN.
    assert (Hm' : m = Rdot e e / INR (length e)).
    { unfold MSE in Hm; simpl in Hm. rewrite INR_IZR_INZ. unfold nofnat in Hm; simpl in Hm. congruence. }
    assert (Ha' : a = Rsum (map Rabs e) / INR (length e)).
    { unfold MAE in Ha; simpl in Ha. rewrite INR_IZR_INZ. unfold nofnat in Ha; simpl in Ha. congruence. }
    assert (Hr' : r = sqrt m).
    { unfold RMSE in Hr; simpl in Hr. subst m. rewrite INR_IZR_INZ. unfold nofnat in Hr; simpl in Hr. congruence. }
    pose proof (sum_abs_sq e) as H1. pose proof (sum_sq_abs e) as H2.
    set (S1 := Rsum (map Rabs e)) in *. set (S2 := Rdot e e) in *. set (N := INR (length e)) in *.
    assert (HS1 : 0 <= S1) by (unfold S1; clear; induction e as [|b e IH]; simpl; [lra|]; pose proof (Rabs_pos b); lra).
    assert (HS2 : 0 <= S2) by apply normsq_nonneg.
    assert (HiN : 0 < / N) by (apply Rinv_0_lt_compat; auto).
    assert (Ha0 : 0 <= a) by (rewrite Ha'; apply Rmult_le_pos; lra).
    assert (Hm0 : 0 <= m) by (rewrite Hm'; apply Rmult_le_pos; lra).
    assert (Hr0 : 0 <= r) by (rewrite Hr'; apply sqrt_pos).
    assert (Hrr : r * r = m) by (rewrite Hr'; apply sqrt_sqrt; auto).
    assert (HNN : N * / N = 1) by (apply Rinv_r; lra).
    assert (Haa : a * a <= m).
    { rewrite Ha', Hm'. unfold Rdiv. apply Rle_trans with (N * S2 * / N * / N).
      - replace (S1 * / N * (S1 * / N)) with (S1 ^ 2 * (/ N * / N)) by ring.
        replace (N * S2 * / N * / N) with (N * S2 * (/ N * / N)) by ring.
        apply Rmult_le_compat_r; [|exact H1]. apply Rmult_le_pos; lra.
      - replace (N * S2 * / N * / N) with ((N * / N) * (S2 * / N)) by ring. rewrite HNN; lra. }
    split; [apply Rsqr_incr_0_var; [unfold Rsqr; lra|auto]|]. split; [exact Haa|].
    split.
    { apply Rsqr_incr_0_var; [|apply Rmult_le_pos; [apply sqrt_pos|auto]].
      rewrite Rsqr_mult, Rsqr_sqrt by lra. unfold Rsqr. rewrite Hrr, Hm', Ha'. unfold Rdiv.
      replace (N * (S1 * / N * (S1 * / N))) with ((N * / N) * (S1 ^ 2 * / N)) by ring. rewrite HNN, Rmult_1_l.
      apply Rmult_le_compat_r; lra. }
    assert (Hbound : forall M, (forall j, (j < length e)%nat -> Rabs (nth j e 0) <= M) -> r <= M).
    { intros M HM. assert (0 <= M).
      { destruct e as [|b e']; [congruence|]. pose proof (HM 0%nat ltac:(simpl; lia)) as H0. simpl in H0. pose proof (Rabs_pos b). lra. }
      apply Rsqr_incr_0_var; auto. unfold Rsqr. rewrite Hrr, Hm'. pose proof (dot_bound e M HM) as Hd. fold S2 N in Hd.
      unfold Rdiv. apply Rle_trans with (N * (M * M) * / N).
      - apply Rmult_le_compat_r; lra.
      - replace (N * (M * M) * / N) with ((N * / N) * (M * M)) by ring. rewrite HNN; lra. }
    split; [|exact Hbound].
    destruct (max_abs e Hn) as (i & Hi & Hmax). exists i. split; auto.
  Qed.

  (** logSE: decibels of the squared error; doubling as 20 log10 |e| *)
  Theorem C33_logSE : forall (e : rvec) l i, logSE e no_second = Ok l -> (i < length e)%nat -> nth i e 0 <> 0 ->
    nth i l 0 = 20 * (ln (Rabs (nth i e 0)) / ln 10).
  Proof.
    intros e l i H Hi Hz. unfold logSE in H; cbn in H. injection H as <-.
    rewrite (nth_indep _ 0 ((fun e0 => 10 * (ln (e0 * (e0 * 1)) / ln 10)) 0)) by (rewrite map_length; auto).
    rewrite (map_nth (fun e0 => 10 * (ln (e0 * (e0 * 1)) / ln 10))).
    set (a := nth i e 0) in *. assert (Ha : 0 < Rabs a) by (apply Rabs_pos_lt; auto).
    replace (a * (a * 1)) with (Rabs a * Rabs a).
    - rewrite ln_mult by auto. unfold Rdiv; ring.
    - rewrite <- Rabs_mult, Rabs_right; [ring|apply Rle_ge, Rle_0_sqr].
  Qed.

  Example C33_hypotheses : exists m a r, MSE [3; -4] no_second = Ok m /\ MAE [3; -4] no_second = Ok a /\
    RMSE [3; -4] no_second = Ok r /\ m = 25 / 2 /\ a = 7 / 2.
  Proof.
    do 3 eexists. repeat split; unfold nofnat; simpl.
    - f_equal. ring.
    - f_equal. rewrite Rabs_right, Rabs_left by lra. ring.
  Qed.
End RProps.
