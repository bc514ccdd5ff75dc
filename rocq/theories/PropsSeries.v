(** C61: one-step prediction of a time series with input_from_history and run (exact real arithmetic). *)
From Coq Require Import Reals Lra Psatz.
From Verif Require Import Py Num Numpy Filters Registry Spec StructProofs RunProofs Reach RVec RFilter PropsRun PropsStability PropsNoise PropsConverge Preprocess PropsPreprocess.
Open Scope R_scope.

(** ** Specification *)
(** the n values of the series that precede time t + n, oldest first *)
Definition past (a : nat -> R) (n t : nat) : rvec := map (fun i => a (t + i)%nat) (seq 0 n).

(** a series that continues by a fixed linear rule: a[t+n] = c . (a[t], ..., a[t+n-1]) + b *)
Definition continues_by (c : rvec) (b : R) (a : nat -> R) : Prop :=
  forall t, a (t + length c)%nat = Rdot c (past a (length c) t) + b.

Section S.
  Variable solve : list rvec -> list rvec -> option (list rvec).
  #[local] Hint Extern 0 (Num R) => exact (RNum solve) : typeclass_instances.
  Notation obj := (obj R).

  (** the usual script: x = input_from_history(u, n, bias)[:-1]; y, e, w = f.run(u[n:], x), on the first N + n values u
      of the series, for every N: the errors are the first N of E *)
  Definition predicts_series (o : obj) (n : nat) (bias : bool) (a E : nat -> R) : Prop :=
    forall N, (0 < N)%nat ->
      exists x o' y w, input_from_history (first (N + n) a) (PInt (Z.of_nat n)) bias = Ok x /\
        run (skipn n (first (N + n) a)) (removelast x) o = (o', Ok (y, first N E, w)).

  Definition regressor (a : nat -> R) (n : nat) (bias : bool) (t : nat) : rvec := past a n t ++ (if bias then [1] else []).

  Lemma past_length a n t : length (past a n t) = n.
  Proof. unfold past. rewrite map_length, seq_length. reflexivity. Qed.
  Lemma past_nth a n t i dflt : (i < n)%nat -> nth i (past a n t) dflt = a (t + i)%nat.
  Proof.
    intros Hi. unfold past. rewrite (nth_indep _ dflt (a (t + 0)%nat)) by (rewrite map_length, seq_length; exact Hi).
    rewrite (map_nth (fun i => a (t + i)%nat)), seq_nth by exact Hi. reflexivity.
  Qed.

  (** what input_from_history builds of the series *)
  Lemma history_first a n bias N : (0 < n)%nat -> (0 < N)%nat ->
    exists x, input_from_history (first (N + n) a) (PInt (Z.of_nat n)) bias = Ok x /\
      removelast x = first N (regressor a n bias) /\ skipn n (first (N + n) a) = first N (fun k => a (k + n)%nat).
  Proof.
    intros Hn HN. destruct (C36_windows (NT := RNum solve) (first (N + n) a) (Z.of_nat n)) as (x & H1 & (H2 & H3) & H4).
    { rewrite first_length. lia. }
    rewrite Nat2Z.id in H2, H3. rewrite first_length in H2.
    assert (Hx : x = first (S N) (past a n)).
    { apply (nth_ext _ _ [] []); rewrite ?first_length; [lia|]. intros i Hi. rewrite first_nth by lia.
      destruct (H3 i Hi) as (L & H5). apply (nth_ext _ _ 0 0); rewrite ?past_length; [exact L|]. rewrite L. intros j Hj.
      rewrite H5, past_nth by exact Hj. rewrite first_nth by lia. reflexivity. }
    exists (if bias then map (fun r => r ++ [1]) x else x). split; [destruct bias; [exact H4|exact H1]|].
    assert (Hr : (if bias then map (fun r => r ++ [1]) x else x) = first (S N) (regressor a n bias)).
    { subst x. unfold first, regressor. destruct bias; [rewrite map_map; reflexivity|]. apply map_ext. intros t. rewrite app_nil_r. reflexivity. }
    rewrite Hr. split.
    - unfold first. rewrite seq_S, map_app. cbn [map]. apply removelast_last.
    - apply (nth_ext _ _ 0 0); rewrite ?skipn_length, ?first_length; [lia|]. intros k Hk.
      rewrite skipn_nth, !first_nth by lia. f_equal. lia.
  Qed.

  Definition extended (c : rvec) (b : R) (bias : bool) : rvec := c ++ (if bias then [b] else []).

  Lemma dot_app (u v u' v' : rvec) : length u = length v -> Rdot (u ++ u') (v ++ v') = Rdot u v + Rdot u' v'.
  Proof.
    revert v; induction u as [|p u IH]; intros [|q v] H; try discriminate; cbn [app Rdot]; [lra|].
    rewrite IH by (cbn in H; lia). lra.
  Qed.

  Lemma regressor_length a n bias t : length (regressor a n bias t) = (n + if bias then 1 else 0)%nat.
  Proof. unfold regressor. rewrite app_length, past_length. destruct bias; reflexivity. Qed.

  Lemma regressor_target c b bias a : continues_by c b a -> (bias = false -> b = 0) ->
    forall t, a (t + length c)%nat = Rdot (extended c b bias) (regressor a (length c) bias t).
  Proof.
    intros Hc Hb t. rewrite Hc. unfold extended, regressor. rewrite dot_app by (rewrite past_length; reflexivity).
    destruct bias; cbn [Rdot]; [lra|]. rewrite Hb by reflexivity. lra.
  Qed.

  Lemma past_norm a n t B : (forall k, Rabs (a k) <= B) -> normsq (past a n t) <= INR n * B ^ 2.
  Proof.
    intros HB. unfold past. induction n as [|n IH]; [unfold normsq; cbn; lra|].
    rewrite seq_S, map_app, S_INR. cbn [map Nat.add]. unfold normsq in *. rewrite dot_app by reflexivity. cbn [Rdot].
    pose proof (HB (t + n)%nat) as H. assert (Hs : a (t + n)%nat * a (t + n)%nat <= B ^ 2).
    { rewrite <- (Rabs_pos_eq (a (t + n)%nat * a (t + n)%nat)) by nra. rewrite Rabs_mult. pose proof (Rabs_pos (a (t + n)%nat)). nra. }
    lra.
  Qed.
  Lemma regressor_norm a n bias t B : (forall k, Rabs (a k) <= B) -> normsq (regressor a n bias t) <= INR n * B ^ 2 + (if bias then 1 else 0).
  Proof.
    intros HB. pose proof (past_norm a n t B HB) as H. unfold regressor. unfold normsq in *. rewrite dot_app by reflexivity.
    destruct bias; cbn [Rdot]; lra.
  Qed.

  Lemma from_identifies (c : rvec) (bias : bool) a (o : obj) ws : (0 < length c)%nat ->
    identifies solve (length c + if bias then 1 else 0)%nat o (fun k => a (k + length c)%nat) (regressor a (length c) bias) ws ->
    exists E, predicts_series o (length c) bias a E /\ Un_cv E 0.
  Proof.
    intros Hn (E & W & HR & _ & HE & _). exists E. split; [|exact HE]. intros N HN.
    destruct (history_first a (length c) bias N Hn HN) as (x & H1 & H2 & H3). destruct (HR N HN) as (o' & y & H4).
    exists x, o', y, (first N W). rewrite H2, H3. auto.
  Qed.

  (** the prediction errors of NLMS on a bounded series with a linear rule tend to zero, for every step size between 0
      and 2, every start and every rule *)
  Theorem C61_NLMS : forall (c : rvec) b bias a (o : obj) eps B,
    (0 < length c)%nat -> continues_by c b a -> (bias = false -> b = 0) -> (forall t, Rabs (a t) <= B) ->
    reachable (length c + if bias then 1 else 0)%nat o -> o_ext o = XNLMS eps -> 0 < o_mu o < 2 -> 0 < eps ->
    exists E, predicts_series o (length c) bias a E /\ Un_cv E 0.
  Proof.
    intros c b bias a o eps B Hn Hc Hb HB Hr Ex Hmu He.
    apply (from_identifies c bias a o (extended c b bias) Hn).
    apply (C54_NLMS solve _ o _ _ _ eps (eps + (INR (length c) * B ^ 2 + (if bias then 1 else 0)))); auto.
    - intros k. apply regressor_length.
    - unfold extended. rewrite app_length. destruct bias; reflexivity.
    - apply regressor_target; auto.
    - lra.
    - intros k. pose proof (regressor_norm a (length c) bias k B HB). pose proof (normsq_nonneg (regressor a (length c) bias k)). lra.
  Qed.

  (** LMS needs the step size below the stability limit for the amplitude of the series *)
  Theorem C61_LMS : forall (c : rvec) b bias a (o : obj) B,
    (0 < length c)%nat -> continues_by c b a -> (bias = false -> b = 0) -> (forall t, Rabs (a t) <= B) ->
    reachable (length c + if bias then 1 else 0)%nat o -> o_ext o = XLMS ->
    0 < o_mu o -> o_mu o * (INR (length c) * B ^ 2 + (if bias then 1 else 0)) < 2 ->
    exists E, predicts_series o (length c) bias a E /\ Un_cv E 0.
  Proof.
    intros c b bias a o B Hn Hc Hb HB Hr Ex Hmu Hlt.
    apply (from_identifies c bias a o (extended c b bias) Hn).
    apply (C54_LMS solve _ o _ _ _ (o_mu o * (INR (length c) * B ^ 2 + (if bias then 1 else 0)))); auto.
    - intros k. apply regressor_length.
    - unfold extended. rewrite app_length. destruct bias; reflexivity.
    - apply regressor_target; auto.
    - intros k. apply Rmult_le_compat_l; [lra|]. apply regressor_norm; exact HB.
  Qed.

  (** every sampled sinusoid plus a constant is such a series, with two past values and the bias *)
  Lemma sinusoid_continues A theta phi m :
    continues_by [-1; 2 * cos theta] (m * (2 - 2 * cos theta)) (fun t => m + A * cos (theta * INR t + phi)).
  Proof.
    intros t. cbn [length]. unfold past. cbn [seq map Rdot]. rewrite !plus_INR. cbn [INR].
    replace (theta * (INR t + (1 + 1)) + phi) with ((theta * (INR t + 1) + phi) + theta) by ring.
    replace (theta * (INR t + 0) + phi) with ((theta * (INR t + 1) + phi) - theta) by ring.
    rewrite cos_plus, cos_minus. ring.
  Qed.

  Theorem C61_sinusoid : forall A theta phi m (o : obj) eps,
    reachable 3 o -> o_ext o = XNLMS eps -> 0 < o_mu o < 2 -> 0 < eps ->
    exists E, predicts_series o 2 true (fun t => m + A * cos (theta * INR t + phi)) E /\ Un_cv E 0.
  Proof.
    intros A theta phi m o eps Hr Ex Hmu He.
    apply (C61_NLMS [-1; 2 * cos theta] (m * (2 - 2 * cos theta)) true _ o eps (Rabs m + Rabs A)); auto.
    - cbn; lia.
    - apply sinusoid_continues.
    - discriminate.
    - intros t. eapply Rle_trans; [apply Rabs_triang|]. rewrite Rabs_mult. apply Rplus_le_compat_l.
      pose proof (COS_bound (theta * INR t + phi)) as Hb. assert (Rabs (cos (theta * INR t + phi)) <= 1) by (apply Rabs_le; lra).
      pose proof (Rabs_pos A). nra.
  Qed.

  (** the hypotheses can be met: new filters, and the series 1, 0, -1, 0, 1, ... *)
  Definition series_kw (mu : R) : kwargs R :=
    mkKw (Some 3%Z) (Some mu) (Some (WStr "zeros")) (Some 1) None None None None None None None false.
  Definition fresh3 (mu : R) (x : ext R) : obj := mkObj [0; 0; 0] 3 mu None x.
  Example C61_hypotheses :
    new_filter rngR KNLMS (series_kw 1) = Ok (fresh3 1 (XNLMS 1)) /\ reachable 3 (fresh3 1 (XNLMS 1)) /\ new_filter rngR KLMS (kwR (1 / 4) None None None) = Ok (fresh2 (1 / 4) XLMS) /\ reachable 2 (fresh2 (1 / 4) XLMS) /\ continues_by [-1; 0] 0 (fun t => nth (t mod 4)%nat [1; 0; -1; 0] 0) /\ (forall t, Rabs (nth (t mod 4)%nat [1; 0; -1; 0] 0) <= 1) /\ 1 / 4 * (INR 2 * 1 ^ 2 + 0) < 2.
  Proof.
    assert (H1 : new_filter rngR KNLMS (series_kw 1) = Ok (fresh3 1 (XNLMS 1))) by reflexivity.
    assert (H2 : new_filter rngR KLMS (kwR (1 / 4) None None None) = Ok (fresh2 (1 / 4) XLMS)) by reflexivity.
    split; [exact H1|]. split.
    { apply (reach_new 3 rngR KNLMS (series_kw 1)); [apply rngR_ok|split; intros ? Hs; discriminate Hs|reflexivity|exact H1]. }
    split; [exact H2|]. split; [exact (fresh2_reachable solve _ _ _ _ _ _ H2)|].
    assert (Hm : forall t, (t mod 4 < 4)%nat) by (intros t; apply Nat.mod_upper_bound; lia).
    split; [|split; [|cbn [INR]; lra]].
    - intros t. cbn [length]. unfold past. cbn [seq map Rdot]. rewrite Nat.add_0_r.
      rewrite (Nat.add_mod t 2 4), (Nat.add_mod t 1 4) by lia. specialize (Hm t).
      destruct (t mod 4)%nat as [|[|[|[|k]]]]; [| | | |lia]; cbn; lra.
    - intros t. specialize (Hm t). destruct (t mod 4)%nat as [|[|[|[|k]]]]; [| | | |lia]; cbn [nth]; apply Rabs_le; lra.
  Qed.
End S.
