(** C100: NLMS fed with independent samples of any distribution: NLMS is LMS on normalised samples, so what it looks for
    on average is the minimum of the normalised error, not of the error (exact real arithmetic). *)
From Coq Require Import Reals Lra Psatz.
From Verif Require Import Py Num Numpy Filters Registry Spec StructProofs RunProofs Reach RVec RFilter RMat PropsStability PropsNoise PropsIID.
Open Scope R_scope.

(** ** Specification *)
(** the power of a sample, and the mean squared error of the fixed weights w when every error is weighted by one over the power *)
Definition power (eps : R) (a : sample) : R := eps + Rdot (fst a) (fst a).
Definition nmse_of (eps : R) (P : law sample) (w : rvec) : R := mean P (fun a => (snd a - Rdot w (fst a)) ^ 2 / power eps a).
Definition nbest_filter (eps : R) (n : nat) (P : law sample) (ws : rvec) : Prop :=
  length ws = n /\ forall v, length v = n -> nmse_of eps P ws <= nmse_of eps P v.
Definition powered (eps : R) (P : law sample) : Prop := Forall (fun pa => 0 < power eps (snd pa)) P.
(** the sample divided by the square root of its power *)
Definition unit (eps : R) (a : sample) : sample := (vsc (/ sqrt (power eps a)) (fst a), / sqrt (power eps a) * snd a).
Definition unit_law (eps : R) (P : law sample) : law sample := map (fun pa => (fst pa, unit eps (snd pa))) P.

(** ** Images of distributions *)
Lemma mean_image (P : law sample) (g : sample -> sample) f : mean (map (fun pa => (fst pa, g (snd pa))) P) f = mean P (fun a => f (g a)).
Proof. unfold mean. rewrite map_map. reflexivity. Qed.
Lemma expect_image (P : law sample) (g : sample -> sample) N : forall f,
  expect (map (fun pa => (fst pa, g (snd pa))) P) N f = expect P N (fun s => f (map g s)).
Proof.
  induction N as [|N IH]; intros f; [reflexivity|]. cbn [expect]. rewrite mean_image. apply mean_ext. intros a _. rewrite IH. reflexivity.
Qed.
Lemma unit_is_law eps P : is_law P -> is_law (unit_law eps P).
Proof.
  intros (H1 & H2). split.
  - unfold unit_law. apply Forall_map. eapply Forall_impl; [|exact H1]. intros pa H. exact H.
  - unfold unit_law. rewrite map_map. cbn [fst]. exact H2.
Qed.
Lemma unit_samples eps n P : samples_of n P -> samples_of n (unit_law eps P).
Proof. intros H. unfold samples_of, unit_law. apply Forall_map. eapply Forall_impl; [|exact H]. intros pa Ha. cbn [fst snd unit]. rewrite vsc_length. exact Ha. Qed.
Lemma in_powered eps P a : powered eps P -> In a (map snd P) -> 0 < power eps a.
Proof. intros H Ha. apply in_map_iff in Ha as ([p b] & <- & Hb). unfold powered in H. rewrite Forall_forall in H. exact (H _ Hb). Qed.
Lemma Rdot_vsc_r' w c v : Rdot w (vsc c v) = c * Rdot w v.
Proof. rewrite Rdot_comm, Rdot_vsc_l, Rdot_comm. reflexivity. Qed.
Lemma unit_norm eps a : 0 < eps + normsq (fst a) -> 0 <= eps -> normsq (fst (unit eps a)) <= 1.
Proof.
  intros H He. unfold unit, normsq, power in *. cbn [fst]. rewrite Rdot_vsc_l, Rdot_vsc_r'. set (q := eps + Rdot (fst a) (fst a)) in *. pose proof (sqrt_lt_R0 q H) as Hs.
  pose proof (sqrt_sqrt q (Rlt_le _ _ H)) as Hq.
  apply (Rmult_le_reg_l q); [exact H|]. replace (q * (/ sqrt q * (/ sqrt q * Rdot (fst a) (fst a)))) with (q * / (sqrt q * sqrt q) * Rdot (fst a) (fst a)) by (field; lra).
  rewrite Hq, Rinv_r by lra. unfold q. lra.
Qed.
Lemma unit_err eps w a : lerr w (unit eps a) = / sqrt (power eps a) * lerr w a.
Proof. unfold lerr, unit. cbn [fst snd]. rewrite Rdot_vsc_r'. ring. Qed.
Lemma inv_sq q r : 0 < q -> (/ sqrt q * r) ^ 2 = r ^ 2 / q.
Proof. intros H. pose proof (sqrt_lt_R0 q H). rewrite <- (sqrt_sqrt q) at 2 by lra. field. lra. Qed.
Lemma unit_mse eps P w : powered eps P -> mse_of (unit_law eps P) w = nmse_of eps P w.
Proof.
  intros H. unfold mse_of, nmse_of, unit_law. rewrite mean_image. apply mean_ext. intros a Ha. pose proof (unit_err eps w a) as E. unfold lerr in E. rewrite E.
  apply inv_sq. exact (in_powered eps P a H Ha).
Qed.
Lemma unit_best eps n P ws : powered eps P -> nbest_filter eps n P ws -> best_filter n (unit_law eps P) ws.
Proof. intros H (Hl & Hb). split; [exact Hl|]. intros v Hv. rewrite !unit_mse by exact H. apply Hb, Hv. Qed.
Lemma unit_step mu eps w a : 0 < power eps a -> lstep mu w (unit eps a) = vadd w (vsc (mu / power eps a * lerr w a) (fst a)).
Proof.
  intros H. unfold lstep. fold (lerr w (unit eps a)). rewrite unit_err. f_equal. unfold unit. cbn [fst]. unfold vsc. rewrite map_map. apply map_ext. intros b.
  pose proof (sqrt_lt_R0 _ H) as Hs. rewrite <- (sqrt_sqrt (power eps a)) at 3 by lra. field. lra.
Qed.

(** ** The average weights as vectors: steepest descent contracts *)
Definition grad (P : law sample) (n : nat) (v : rvec) : rvec := map (fun i => mean P (fun a => Rdot v (fst a) * nth i (fst a) 0)) (seq 0 n).
Lemma grad_length P n v : length (grad P n v) = n.
Proof. unfold grad. rewrite map_length, seq_length. reflexivity. Qed.
Lemma grad_nth P n v i : (i < n)%nat -> nth i (grad P n v) 0 = mean P (fun a => Rdot v (fst a) * nth i (fst a) 0).
Proof.
  intros H. unfold grad. set (f := fun i => mean P (fun a => Rdot v (fst a) * nth i (fst a) 0)). rewrite nth_indep with (d' := f 0%nat) by (rewrite map_length, seq_length; exact H).
  rewrite (map_nth f), seq_nth by exact H. reflexivity.
Qed.
Lemma grad_dot P n u v : samples_of n P -> length u = n -> Rdot u (grad P n v) = mean P (fun a => Rdot v (fst a) * Rdot u (fst a)).
Proof.
  intros HS Lu. rewrite (Rdot_sumn n) by (auto; apply grad_length).
  transitivity (sumn n (fun i => mean P (fun a => nth i u 0 * (Rdot v (fst a) * nth i (fst a) 0)))).
  - apply sumn_ext. intros i Hi. rewrite grad_nth by exact Hi. rewrite mean_scal. reflexivity.
  - rewrite <- (mean_sum P n (fun a i => nth i u 0 * (Rdot v (fst a) * nth i (fst a) 0))). apply mean_ext. intros a Ha. pose proof (in_samples n P a HS Ha) as La.
    rewrite (Rdot_sumn n u (fst a)) by auto. rewrite <- sumn_scal. apply sumn_ext. intros; ring.
Qed.
Lemma grad_norm P n v X : is_law P -> samples_of n P -> 0 < X -> (forall a, In a (map snd P) -> normsq (fst a) <= X) ->
  normsq (grad P n v) <= X * mean P (fun a => Rdot v (fst a) ^ 2).
Proof.
  intros HP HS HX Hb. set (g := grad P n v). pose proof (grad_dot P n g v HS (grad_length P n v)) as E. fold g in E. change (Rdot g g) with (normsq g) in E.
  assert (H : mean P (fun a => Rdot v (fst a) * Rdot g (fst a)) <= mean P (fun a => X / 2 * Rdot v (fst a) ^ 2 + normsq g * (1 / 2))).
  { apply mean_le; [exact HP|]. intros a Ha. pose proof (Hb a Ha) as Hn. pose proof (Cauchy_Schwarz g (fst a)) as C. pose proof (normsq_nonneg g) as Hg.
    set (p := Rdot v (fst a)) in *. set (q := Rdot g (fst a)) in *.
    assert (C' : q * q <= normsq g * X) by (eapply Rle_trans; [exact C|apply Rmult_le_compat_l; auto]).
    assert (S : 0 <= (X * p - q) * (X * p - q)) by apply Rle_0_sqr.
    apply (Rmult_le_reg_l (2 * X)); [lra|]. replace (2 * X * (X / 2 * p ^ 2 + normsq g * (1 / 2))) with (X * p * (X * p) + normsq g * X) by field. lra. }
  rewrite mean_plus, mean_scal, mean_scal in H. rewrite <- E in H.
  assert (H1 : normsq g * mean P (fun _ => 1 / 2) = normsq g / 2) by (rewrite mean_const by exact HP; lra).
  assert (H2 : mean P (fun _ : sample => normsq g * (1 / 2)) = normsq g / 2) by (rewrite mean_const by exact HP; lra).
  lra.
Qed.
Lemma geometric (D : nat -> R) q : (forall N, 0 <= D N) -> (forall N, D (S N) <= q * D N) -> forall N, D N <= q ^ N * D 0%nat.
Proof.
  intros H0 H1. destruct (Rle_lt_dec 0 q) as [Hq|Hq].
  - induction N as [|N IH]; [simpl; lra|]. eapply Rle_trans; [apply H1|]. cbn [pow]. rewrite Rmult_assoc. apply Rmult_le_compat_l; assumption.
  - assert (Z : forall N, D N = 0). { intros N. pose proof (H0 (S N)). pose proof (H1 N). pose proof (H0 N). nra. }
    intros N. rewrite !Z. lra.
Qed.
(** one step of steepest descent *)
Lemma descent n (P : law sample) ws w w' mu X lam : is_law P -> samples_of n P -> normal_eq P n ws -> length ws = n -> length w = n -> length w' = n ->
  (forall i, (i < n)%nat -> nth i w' 0 = nth i w 0 + mu * mean P (fun a => (snd a - Rdot w (fst a)) * nth i (fst a) 0)) ->
  0 < X -> (forall a, In a (map snd P) -> normsq (fst a) <= X) -> 0 < mu -> mu * X <= 2 ->
  (forall v, length v = n -> lam * normsq v <= mean P (fun a => Rdot v (fst a) ^ 2)) ->
  distsq w' ws <= (1 - mu * (2 - mu * X) * lam) * distsq w ws.
Proof.
  intros HP HS HN Lws Lw Lw' Hstep HX Hb Hmu HmX Hlam. set (v := vsub w ws). assert (Lv : length v = n) by (apply vsub_length; auto).
  set (g := grad P n v). pose proof (grad_length P n v) as Lg. fold g in Lg.
  assert (E : w' = vadd w (vsc (- mu) g)).
  { apply nth_ext0; [rewrite (vadd_length _ _ n) by (rewrite ?vsc_length; auto); exact Lw'|]. intros i Hi. rewrite Lw' in Hi. rewrite Hstep by exact Hi.
    rewrite nth_vadd by (rewrite vsc_length; congruence). rewrite nth_vsc. unfold g. rewrite grad_nth by exact Hi.
    (* the unit vector *)
    set (u := map (fun j => if Nat.eqb j i then 1 else 0) (seq 0 n) : rvec).
    assert (Lu : length u = n) by (unfold u; rewrite map_length, seq_length; reflexivity).
    assert (Hu : forall z, length z = n -> Rdot u z = nth i z 0).
    { intros z Lz. rewrite (Rdot_sumn n) by auto. transitivity (sumn n (fun j => if Nat.eqb j i then nth i z 0 else 0)).
      - apply sumn_ext. intros j Hj. unfold u. rewrite nth_indep with (d' := (fun j => if Nat.eqb j i then 1 else 0) 0%nat) by (rewrite map_length, seq_length; exact Hj).
        rewrite (map_nth (fun j => if Nat.eqb j i then 1 else 0)), seq_nth by exact Hj. cbn [plus]. destruct (Nat.eqb_spec j i) as [->|]; ring.
      - clear - Hi. induction n as [|m IH]; [lia|]. cbn [sumn]. destruct (Nat.eq_dec m i) as [->|Hm].
        + rewrite Nat.eqb_refl. rewrite (sumn_ext i _ (fun _ => 0)).
          * clear. assert (Z : sumn i (fun _ => 0) = 0) by (induction i as [|k IH]; [reflexivity|cbn [sumn]; rewrite IH; ring]). rewrite Z. ring.
          * intros j Hj. destruct (Nat.eqb_spec j i); [lia|reflexivity].
        + rewrite IH by lia. destruct (Nat.eqb_spec m i); [lia|ring]. }
    pose proof (HN u Lu) as HNu.
    assert (E0 : mean P (fun a => (snd a - Rdot w (fst a)) * nth i (fst a) 0) = mean P (fun a => lerr ws a * Rdot u (fst a)) + -1 * mean P (fun a => Rdot v (fst a) * nth i (fst a) 0)).
    { rewrite <- mean_scal, <- mean_plus. apply mean_ext. intros a Ha. pose proof (in_samples n P a HS Ha) as La. rewrite Hu by exact La. unfold lerr, v. rewrite Rdot_vsub_l by congruence. ring. }
    rewrite E0, HNu. ring. }
  rewrite E. rewrite distsq_move by congruence.
  assert (E1 : Rdot w g - Rdot ws g = mean P (fun a => Rdot v (fst a) ^ 2)).
  { rewrite <- Rdot_vsub_l by congruence. fold v. unfold g. rewrite grad_dot by auto. apply mean_ext. intros; ring. }
  rewrite E1. pose proof (grad_norm P n v X HP HS HX Hb) as HG. fold g in HG. pose proof (Hlam v Lv) as HL. change (normsq v) with (distsq w ws) in HL.
  set (M := mean P (fun a => Rdot v (fst a) ^ 2)) in *.
  assert (HG' : mu * mu * normsq g <= mu * mu * (X * M)) by (apply Rmult_le_compat_l; [apply Rmult_le_pos; lra|exact HG]).
  assert (HL' : mu * (2 - mu * X) * (lam * distsq w ws) <= mu * (2 - mu * X) * M) by (apply Rmult_le_compat_l; [apply Rmult_le_pos; lra|exact HL]).
  lra.
Qed.

Section S.
  Variable solve : list rvec -> list rvec -> option (list rvec).
  #[local] Hint Extern 0 (Num R) => exact (RNum solve) : typeclass_instances.
  Notation obj := (obj R).
  #[local] Notation weights_after := (weights_after solve).
  #[local] Notation errors_of := (errors_of solve).
  #[local] Notation weights_avg := (weights_avg solve).
  #[local] Notation energy_avg := (energy_avg solve).

  (** LMS: the average weights converge to the best ones at a geometric rate *)
  Theorem C72_mean_convergence : forall n (o : obj) (P : law sample) ws X lam,
    reachable n o -> o_ext o = XLMS -> is_law P -> samples_of n P -> best_filter n P ws ->
    0 < X -> (forall a, In a (map snd P) -> normsq (fst a) <= X) -> 0 < o_mu o -> o_mu o * X <= 2 ->
    (forall v, length v = n -> lam * normsq v <= mean P (fun a => Rdot v (fst a) ^ 2)) ->
    forall N, distsq (weights_avg o P N) ws <= (1 - o_mu o * (2 - o_mu o * X) * lam) ^ N * distsq (o_w o) ws.
  Proof.
    intros n o P ws X lam Hr Ex HP HS HB HX Hb Hmu HmX Hlam. pose proof (reachable_wf _ _ Hr) as (Lw & _). pose proof (best_normal n P ws HP HS HB) as HN. destruct HB as (Lws & _).
    destruct (C72_mean_weights solve n o P Hr Ex HP HS) as (H0 & H1).
    assert (La : forall N, length (weights_avg o P N) = n) by (intros N; unfold PropsIID.weights_avg; rewrite map_length, seq_length; exact Lw).
    rewrite <- H0. apply (geometric (fun N => distsq (weights_avg o P N) ws)); [intros N; apply normsq_nonneg|].
    intros N. apply (descent n P ws (weights_avg o P N) (weights_avg o P (S N)) (o_mu o) X lam); auto.
  Qed.

  (** the same as a part of C100: LMS goes to the weights that minimise the error itself *)
  Theorem C100_LMS_mean_convergence : forall n (o : obj) (P : law sample) ws X lam,
    reachable n o -> o_ext o = XLMS -> is_law P -> samples_of n P -> best_filter n P ws ->
    0 < X -> (forall a, In a (map snd P) -> normsq (fst a) <= X) -> 0 < o_mu o -> o_mu o * X <= 2 ->
    (forall v, length v = n -> lam * normsq v <= mean P (fun a => Rdot v (fst a) ^ 2)) ->
    forall N, distsq (weights_avg o P N) ws <= (1 - o_mu o * (2 - o_mu o * X) * lam) ^ N * distsq (o_w o) ws.
  Proof. exact C72_mean_convergence. Qed.

  (** the average of the sum of the normalised squared errors of a run *)
  Definition nenergy_avg (eps : R) (o : obj) (P : law sample) (N : nat) : R :=
    expect P N (fun s => total N (fun k => nth k (errors_of o s) 0 ^ 2 / power eps (nth k s ([], 0)))).

  (** an LMS filter with the same weights and the same learning rate *)
  Definition as_LMS (o : obj) : obj := mkObj (o_w o) (length (o_w o)) (o_mu o) None XLMS.
  Lemma as_LMS_reachable n (o : obj) : reachable n o -> reachable n (as_LMS o).
  Proof.
    intros Hr. pose proof (reachable_wf _ _ Hr) as (Lw & _).
    apply (reach_new n rngR KLMS (mkKw (Some (Z.of_nat n)) (Some (o_mu o)) (Some (WVec (o_w o))) None None None None None None None None false)).
    - apply rngR_ok.
    - split; intros ? Hs; discriminate Hs.
    - reflexivity.
    - unfold as_LMS. rewrite Lw. unfold new_filter. cbn. unfold init_base. destruct (Z.eqb_spec (Z.of_nat n) (-1)); [lia|].
      unfold init_weights. rewrite Lw, Z.eqb_refl. cbn [rmap]. rewrite Nat2Z.id. reflexivity.
  Qed.

  Lemma nlms_run n (o : obj) eps (s : list sample) : reachable n o -> o_ext o = XNLMS eps -> Forall (fun a => length (fst a) = n) s ->
    Forall (fun a => 0 < power eps a) s ->
    weights_after o s = lrun (o_mu o) (o_w o) (map (unit eps) s) /\ length (errors_of o s) = length s /\
    forall k, (k < length s)%nat -> / sqrt (power eps (nth k s ([], 0))) * nth k (errors_of o s) 0 = nth k (lerrs (o_mu o) (o_w o) (map (unit eps) s)) 0.
  Proof.
    intros Hr Ex HF HQ. unfold PropsIID.weights_after, PropsIID.errors_of.
    destruct s as [|a s]; [split; [reflexivity|split; [reflexivity|cbn; intros; lia]]|]. assert (Hne : a :: s <> []) by discriminate. revert HF HQ Hne. generalize (a :: s). clear a s. intros l HF HQ Hne.
    assert (Hx : rows_of n (map fst l)) by (unfold rows_of, rowsl; apply Forall_map; exact HF).
    destruct (run_exists solve n o (map snd l) (map fst l) Hr Hx) as (o' & y & e & w & E).
    { rewrite !map_length. reflexivity. } { destruct l; [congruence|discriminate]. } { intros ex H. unfold soft_exn in H. rewrite Ex in H. exact H. }
    pose proof (reachable_wf _ _ Hr) as Hwf.
    assert (Ht : forall e v, textbook (o_ext o) (o_mu o) e v <> None) by (intros; rewrite Ex; discriminate).
    rewrite E. cbn [fst snd].
    assert (Hlw : length w = length l /\ length e = length l /\ wrow w (o_w o') 0 = o_w o).
    { destruct (run_eq n o (map snd l) (map fst l) Hwf Hx) as (h & E' & _); [rewrite !map_length; reflexivity|destruct l; [congruence|discriminate]|].
      rewrite E in E'. destruct (snd (adapt_all _ _ o)); [|discriminate].
      simpl in E'. injection E' as _ _ He ->.
      split; [rewrite wtrace_length; [apply map_length|rewrite !map_length; reflexivity]|]. split.
      - rewrite He. apply map2_length_eq; [apply map_length|]. rewrite ytrace_length; rewrite !map_length; reflexivity.
      - unfold wrow. destruct l as [|b l]; [congruence|reflexivity]. }
    destruct Hlw as (Hlw & Hle & Hw0).
    assert (Hnu : forall k, (k < length l)%nat -> nth k (map (unit eps) l) ([], 0) = unit eps (nth k l ([], 0))).
    { intros k Hk. rewrite nth_indep with (d' := unit eps ([], 0)) by (rewrite map_length; exact Hk). apply map_nth. }
    destruct (lms_unique (o_mu o) (map (unit eps) l) (wrow w (o_w o')) (fun k => / sqrt (power eps (nth k l ([], 0))) * nth k e 0)) as (H1 & H2).
    - intros k Hk. rewrite map_length in Hk. destruct (run_textbook solve n o o' _ _ y e w k Hwf Hx Ht E) as (dw & Htb & Hrow & Hy & He & Hl1 & Hl2);
        [rewrite map_length; exact Hk|].
      rewrite Ex in Htb; cbn [textbook] in Htb. injection Htb as <-.
      assert (Hxk : nth k (map fst l) [] = fst (nth k l ([], 0))) by (apply (map_nth fst l ([], 0))).
      assert (Hdk : nth k (map snd l) 0 = snd (nth k l ([], 0))) by (apply (map_nth snd l ([], 0))).
      rewrite Hxk in *. rewrite Hdk in *. rewrite Hnu by exact Hk.
      assert (He' : nth k e 0 = lerr (wrow w (o_w o') k) (nth k l ([], 0))) by (rewrite He, Hy; reflexivity).
      rewrite unit_err, He'. split; [reflexivity|]. rewrite unit_step; [|apply (proj1 (Forall_forall _ _) HQ), nth_In; exact Hk].
      rewrite Hrow, He'. reflexivity.
    - rewrite Hw0 in *. rewrite map_length in H1, H2. split; [|split; [exact Hle|exact H2]].
      rewrite <- H1. unfold wrow. rewrite app_nth2, Hlw, Nat.sub_diag by lia. reflexivity.
  Qed.

  Lemma drawn_power eps (P : law sample) N s : powered eps P -> drawn P N s -> Forall (fun a => 0 < power eps a) s.
  Proof. intros HS (_ & HF). eapply Forall_impl; [|exact HF]. intros a Ha. exact (in_powered eps P a HS Ha). Qed.
  Lemma unit_lengths eps n s : Forall (fun a : sample => length (fst a) = n) s -> Forall (fun a : sample => length (fst a) = n) (map (unit eps) s).
  Proof. intros H. apply Forall_map. eapply Forall_impl; [|exact H]. intros a Ha. cbn [fst unit]. rewrite vsc_length. exact Ha. Qed.

  (** NLMS is LMS on normalised samples: same weights, and the errors are the normalised ones *)
  Theorem C100_is_LMS : forall n (o : obj) eps (s : list sample), reachable n o -> o_ext o = XNLMS eps ->
    Forall (fun a => length (fst a) = n) s -> Forall (fun a => 0 < power eps a) s ->
    let s' := map (unit eps) s in
    weights_after o s = weights_after (as_LMS o) s' /\ length (errors_of o s) = length s /\ length (errors_of (as_LMS o) s') = length s /\
    forall k, (k < length s)%nat -> nth k (errors_of (as_LMS o) s') 0 = nth k (errors_of o s) 0 / sqrt (power eps (nth k s ([], 0))).
  Proof.
    intros n o eps s Hr Ex HF HQ s'. destruct (nlms_run n o eps s Hr Ex HF HQ) as (H1 & H2 & H3).
    destruct (lms_run solve n (as_LMS o) s' (as_LMS_reachable n o Hr) eq_refl (unit_lengths eps n s HF)) as (L1 & L2).
    split; [rewrite H1, L1; reflexivity|]. split; [exact H2|]. split; [rewrite L2, lerrs_length; unfold s'; apply map_length|].
    intros k Hk. rewrite L2. unfold s'. cbn [as_LMS o_w o_mu]. rewrite <- H3 by exact Hk. unfold Rdiv. ring.
  Qed.

  Section Law.
    Variables (n : nat) (o : obj) (eps : R) (P : law sample).
    Hypotheses (Hr : reachable n o) (Ex : o_ext o = XNLMS eps) (HP : is_law P) (HS : samples_of n P) (HQ : powered eps P).

    Lemma same_weights N (f : rvec -> R) : expect P N (fun s => f (weights_after o s)) = expect (unit_law eps P) N (fun s => f (weights_after (as_LMS o) s)).
    Proof.
      unfold unit_law. rewrite expect_image. apply expect_ext. intros s Hs.
      destruct (C100_is_LMS n o eps s Hr Ex (drawn_ok n P N s HS Hs) (drawn_power eps P N s HQ Hs)) as (-> & _). reflexivity.
    Qed.
    Lemma same_avg N : weights_avg o P N = weights_avg (as_LMS o) (unit_law eps P) N.
    Proof. unfold PropsIID.weights_avg. cbn [as_LMS o_w]. apply map_ext. intros i. apply (same_weights N (fun w => nth i w 0)). Qed.
    Lemma same_energy N : nenergy_avg eps o P N = energy_avg (as_LMS o) (unit_law eps P) N.
    Proof.
      unfold nenergy_avg, PropsIID.energy_avg, unit_law. rewrite expect_image. apply expect_ext. intros s Hs.
      pose proof (drawn_power eps P N s HQ Hs) as HQs.
      destruct (C100_is_LMS n o eps s Hr Ex (drawn_ok n P N s HS Hs) HQs) as (_ & _ & _ & HE).
      unfold total. f_equal. apply map_ext_in. intros k Hk%in_seq. destruct Hs as (Hs & _).
      rewrite HE by lia. replace (nth k (errors_of o s) 0 / sqrt (power eps (nth k s ([], 0)))) with (/ sqrt (power eps (nth k s ([], 0))) * nth k (errors_of o s) 0) by (unfold Rdiv; ring).
      symmetry. apply inv_sq. apply (proj1 (Forall_forall _ _) HQs), nth_In. lia.
    Qed.

    (** The average weights of NLMS are those of steepest descent on the normalised mean squared error *)
    Theorem C100_mean_weights :
      weights_avg o P 0 = o_w o /\
      forall N i, (i < n)%nat ->
        nth i (weights_avg o P (S N)) 0 = nth i (weights_avg o P N) 0 +
          o_mu o * mean P (fun a => (snd a - Rdot (weights_avg o P N) (fst a)) * nth i (fst a) 0 / power eps a).
    Proof.
      destruct (C72_mean_weights solve n (as_LMS o) (unit_law eps P) (as_LMS_reachable n o Hr) eq_refl (unit_is_law eps P HP) (unit_samples eps n P HS)) as (H0 & H1).
      split; [rewrite same_avg; exact H0|]. intros N i Hi. rewrite !same_avg, (H1 N i Hi). cbn [as_LMS o_mu]. f_equal. f_equal. unfold unit_law at 1. rewrite mean_image.
      apply mean_ext. intros a Ha. pose proof (in_powered eps P a HQ Ha) as Hp. set (W := weights_avg (as_LMS o) (unit_law eps P) N).
      pose proof (unit_err eps W a) as E. unfold lerr in E. rewrite E. unfold unit at 1. cbn [fst]. rewrite nth_vsc.
      pose proof (sqrt_lt_R0 _ Hp) as Hs. rewrite <- (sqrt_sqrt (power eps a)) at 3 by lra. field. lra.
    Qed.

    (** How well NLMS does on N independent samples; no assumption on the size of the inputs *)
    Theorem C100_error_energy : forall ws N, nbest_filter eps n P ws -> 0 <= eps -> 0 < o_mu o ->
      (2 - o_mu o) * nenergy_avg eps o P N + expect P N (fun s => distsq (weights_after o s) ws) / o_mu o
        <= 2 * INR N * nmse_of eps P ws + distsq (o_w o) ws / o_mu o.
    Proof.
      intros ws N HB He Hmu.
      pose proof (C72_error_energy solve n (as_LMS o) (unit_law eps P) ws 1 N (as_LMS_reachable n o Hr) eq_refl (unit_is_law eps P HP) (unit_samples eps n P HS) (unit_best eps n P ws HQ HB) Hmu) as H.
      rewrite same_energy, (same_weights N (fun w => distsq w ws)), <- unit_mse by exact HQ. cbn [as_LMS o_mu o_w] in H. rewrite Rmult_1_r in H. apply H.
      intros a Ha. unfold unit_law in Ha. rewrite map_map in Ha. cbn [snd] in Ha. apply in_map_iff in Ha as (pa & <- & Hpa).
      apply unit_norm; [|exact He]. apply (in_powered eps P (snd pa) HQ). apply in_map. exact Hpa.
    Qed.
    Theorem C100_no_better : forall ws N, nbest_filter eps n P ws -> INR N * nmse_of eps P ws <= nenergy_avg eps o P N.
    Proof.
      intros ws N HB. rewrite same_energy, <- unit_mse by exact HQ.
      exact (C72_no_better solve n (as_LMS o) (unit_law eps P) ws N (as_LMS_reachable n o Hr) eq_refl (unit_is_law eps P HP) (unit_samples eps n P HS) (unit_best eps n P ws HQ HB)).
    Qed.
    (** The average weights converge to the minimum of the normalised error, for every learning rate below 2, at a
        geometric rate; lam is the least mean power of the normalised inputs in any direction *)
    Theorem C100_mean_convergence : forall ws lam, nbest_filter eps n P ws -> 0 <= eps -> 0 < o_mu o <= 2 ->
      (forall v, length v = n -> lam * normsq v <= mean P (fun a => Rdot v (fst a) ^ 2 / power eps a)) ->
      forall N, distsq (weights_avg o P N) ws <= (1 - o_mu o * (2 - o_mu o) * lam) ^ N * distsq (o_w o) ws.
    Proof.
      intros ws lam HB He Hmu Hlam N. pose proof (as_LMS_reachable n o Hr) as Hr'. pose proof (unit_is_law eps P HP) as HP'. pose proof (unit_samples eps n P HS) as HS'.
      rewrite same_avg. pose proof (C72_mean_convergence n (as_LMS o) (unit_law eps P) ws 1 lam Hr' eq_refl HP' HS' (unit_best eps n P ws HQ HB)) as H. cbn [as_LMS o_mu o_w] in H. rewrite Rmult_1_r in H.
      apply H; try lra.
      - intros a Ha. unfold unit_law in Ha. rewrite map_map in Ha. cbn [snd] in Ha. apply in_map_iff in Ha as (pa & <- & Hpa).
        apply unit_norm; [|exact He]. apply (in_powered eps P (snd pa) HQ). apply in_map. exact Hpa.
      - intros v Lv. eapply Rle_trans; [apply (Hlam v Lv)|]. apply Req_le. unfold unit_law. rewrite mean_image. apply mean_ext. intros a Ha.
        unfold unit. cbn [fst]. rewrite Rdot_vsc_r'. symmetry. apply inv_sq. exact (in_powered eps P a HQ Ha).
    Qed.
  End Law.

  (** *** Both minima agree when the errors of ws average out for every single input vector (a linear system with noise
      that is centred, whatever the input) ... *)
  Definition centred (P : law sample) (ws : rvec) : Prop := forall h : rvec -> R, mean P (fun a => h (fst a) * lerr ws a) = 0.
  Lemma normal_best n (P : law sample) ws : is_law P -> samples_of n P -> length ws = n -> normal_eq P n ws -> best_filter n P ws.
  Proof.
    intros HP HS Lws HN. split; [exact Lws|]. intros v Lv. rewrite (mse_split n P ws v HS HN Lws Lv).
    assert (0 <= mean P (fun a => Rdot (vsub ws v) (fst a) ^ 2)); [|lra]. rewrite <- (mean_const P 0 HP). apply mean_le; [exact HP|]. intros a _. apply pow2_ge_0.
  Qed.
  Theorem C100_same_target : forall n eps (P : law sample) ws, is_law P -> samples_of n P -> powered eps P -> length ws = n -> centred P ws ->
    best_filter n P ws /\ nbest_filter eps n P ws.
  Proof.
    intros n eps P ws HP HS HQ Lws HC. split.
    - apply normal_best; auto. intros u Lu. rewrite <- (HC (fun x => Rdot u x)). apply mean_ext. intros; ring.
    - assert (HB : best_filter n (unit_law eps P) ws).
      { apply normal_best; auto; [apply unit_is_law, HP|apply unit_samples, HS|]. intros u Lu. unfold unit_law. rewrite mean_image.
        rewrite <- (HC (fun x => Rdot u x / (eps + Rdot x x))). apply mean_ext. intros a Ha. rewrite unit_err. unfold unit. cbn [fst]. rewrite Rdot_vsc_r'.
        pose proof (in_powered eps P a HQ Ha) as Hp. pose proof (sqrt_lt_R0 _ Hp) as Hs. change (eps + Rdot (fst a) (fst a)) with (power eps a).
        rewrite <- (sqrt_sqrt (power eps a)) at 3 by lra. field. lra. }
      destruct HB as (_ & HB). split; [exact Lws|]. intros v Lv. rewrite <- !unit_mse by exact HQ. apply HB, Lv.
  Qed.

  (** *** ... and differ otherwise.  Input 1 with target 1 and input 2 with target 0, each with probability 1/2, eps = 1: the
      best weight is 1/5 with mean squared error 2/5; NLMS goes to 5/13 on average, for every learning rate below 2, and its
      mean squared error stays above 2/5 + 2/25 on average. *)
  Definition P2 : law sample := [(1 / 2, ([1], 1)); (1 / 2, ([2], 0))].
  Lemma P2_law : is_law P2 /\ samples_of 1 P2 /\ powered 1 P2.
  Proof.
    split; [split; [repeat constructor; simpl; lra|unfold P2; simpl; lra]|]. split; [repeat constructor|].
    repeat constructor; unfold power; simpl; lra.
  Qed.
  Lemma P2_mse a : mse_of P2 [a] = 2 / 5 + 5 / 2 * (a - 1 / 5) ^ 2.
  Proof. unfold mse_of, mean, P2. simpl. field. Qed.
  Lemma P2_nmse a : nmse_of 1 P2 [a] = 2 / 13 + 13 / 20 * (a - 5 / 13) ^ 2.
  Proof. unfold nmse_of, mean, P2, power. simpl. field. Qed.
  Lemma P2_best : best_filter 1 P2 [1 / 5] /\ nbest_filter 1 1 P2 [5 / 13].
  Proof.
    split; (split; [reflexivity|]); intros [|a [|b v]] Lv; try discriminate; rewrite ?P2_mse, ?P2_nmse.
    - pose proof (pow2_ge_0 (a - 1 / 5)). lra.
    - pose proof (pow2_ge_0 (a - 5 / 13)). lra.
  Qed.
  Lemma q_small q D delta : 0 <= q < 1 -> 0 <= D -> 0 < delta -> exists N0, forall N, (N0 <= N)%nat -> q ^ N * D <= delta.
  Proof.
    intros Hq HD Hd. destruct (pow_lt_1_zero q ltac:(rewrite Rabs_pos_eq; lra) (delta / (D + 1)) ltac:(apply Rdiv_lt_0_compat; lra)) as (N0 & H).
    exists N0. intros N HN. specialize (H N HN). rewrite Rabs_pos_eq in H by (apply pow_le; lra). pose proof (pow_le q N ltac:(lra)).
    apply Rle_trans with (q ^ N * (D + 1)); [apply Rmult_le_compat_l; lra|]. apply Rlt_le. apply Rmult_lt_reg_r with (/ (D + 1)); [apply Rinv_0_lt_compat; lra|].
    rewrite Rmult_assoc, Rinv_r, Rmult_1_r by lra. exact H.
  Qed.
  Theorem C100_biased :
    best_filter 1 P2 [1 / 5] /\ mse_of P2 [1 / 5] = 2 / 5 /\
    forall o : obj, reachable 1 o -> o_ext o = XNLMS 1 -> 0 < o_mu o < 2 ->
      (forall delta, 0 < delta -> exists N0, forall N, (N0 <= N)%nat -> Rabs (nth 0 (weights_avg o P2 N) 0 - 5 / 13) <= delta) /\
      exists N0, forall N, (N0 <= N)%nat -> 2 / 5 + 2 / 25 <= expect P2 N (fun s => mse_of P2 (weights_after o s)).
  Proof.
    destruct P2_law as (HP & HS & HQ). destruct P2_best as (HB & HB'). split; [exact HB|]. split; [rewrite P2_mse; field|].
    intros o Hr Ex Hmu. pose proof (reachable_wf _ _ Hr) as (Lw & _).
    assert (HL : forall v, length v = 1%nat -> 13 / 20 * normsq v <= mean P2 (fun a => Rdot v (fst a) ^ 2 / power 1 a)).
    { intros [|a [|b v]] Lv; try discriminate. unfold normsq, mean, P2, power. simpl. lra. }
    pose proof (C100_mean_convergence 1 o 1 P2 Hr Ex HP HS HQ [5 / 13] (13 / 20) HB' ltac:(lra) ltac:(lra) HL) as HC.
    set (q := 1 - o_mu o * (2 - o_mu o) * (13 / 20)) in HC.
    assert (Hq : 0 <= q < 1).
    { assert (0 < o_mu o * (2 - o_mu o)) by (apply Rmult_lt_0_compat; lra). assert (o_mu o * (2 - o_mu o) <= 1) by (pose proof (Rle_0_sqr (o_mu o - 1)) as Q; unfold Rsqr in Q; lra). unfold q. lra. }
    assert (La : forall N, length (weights_avg o P2 N) = 1%nat) by (intros N; unfold PropsIID.weights_avg; rewrite map_length, seq_length; exact Lw).
    assert (HA : forall delta, 0 < delta -> exists N0, forall N, (N0 <= N)%nat -> Rabs (nth 0 (weights_avg o P2 N) 0 - 5 / 13) <= delta).
    { intros delta Hd. destruct (q_small q (distsq (o_w o) [5 / 13]) (delta * delta) Hq (normsq_nonneg _) ltac:(apply Rmult_lt_0_compat; lra)) as (N0 & H). exists N0. intros N HN.
      specialize (HC N). specialize (H N HN). specialize (La N). destruct (weights_avg o P2 N) as [|a [|b v]]; try discriminate. cbn [nth].
      assert (E : distsq [a] [5 / 13] = (a - 5 / 13) * (a - 5 / 13)) by (unfold distsq, normsq; simpl; ring). rewrite E in HC.
      apply Rabs_le. split; nra. }
    split; [exact HA|]. destruct (HA (1 / 200) ltac:(lra)) as (N0 & H0). exists N0. intros N HN. specialize (H0 N HN).
    assert (EA : nth 0 (weights_avg o P2 N) 0 = expect P2 N (fun s => nth 0 (weights_after o s) 0)) by (apply weights_avg_nth; lia).
    rewrite EA in H0. set (m := expect P2 N (fun s => nth 0 (weights_after o s) 0)) in *.
    apply Rle_trans with (expect P2 N (fun s => (2 / 5 - 5 / 2 * (12 / 65) ^ 2 - 5 / 2 * (2 * (12 / 65) * (1 / 5))) + 5 / 2 * (2 * (12 / 65)) * nth 0 (weights_after o s) 0)).
    - rewrite expect_plus, expect_scal, expect_const by exact HP. fold m. pose proof (Rle_abs (- (m - 5 / 13))) as Ha. rewrite Rabs_Ropp in Ha. lra.
    - apply expect_le; [exact HP|]. intros s Hs. destruct (nlms_run 1 o 1 s Hr Ex (drawn_ok 1 P2 N s HS Hs) (drawn_power 1 P2 N s HQ Hs)) as (-> & _).
      pose proof (lrun_length 1 (o_mu o) (map (unit 1) s) (o_w o) Lw (unit_lengths 1 1 s (drawn_ok 1 P2 N s HS Hs))) as Lr.
      destruct (lrun (o_mu o) (o_w o) (map (unit 1) s)) as [|a [|b v]]; try discriminate. cbn [nth]. rewrite P2_mse.
      pose proof (Rle_0_sqr (a - 1 / 5 - 12 / 65)) as Q. unfold Rsqr in Q. lra.
  Qed.

  (** the hypotheses are met *)
  Theorem C100_hypotheses :
    is_law P2 /\ samples_of 1 P2 /\ powered 1 P2 /\ nbest_filter 1 1 P2 [5 / 13] /\
    (forall v, length v = 1%nat -> 13 / 20 * normsq v <= mean P2 (fun a => Rdot v (fst a) ^ 2 / power 1 a)) /\
    (exists o : obj, reachable 1 o /\ o_ext o = XNLMS 1 /\ 0 < o_mu o < 2) /\
    centred [(1 / 4, ([1; 2], 4)); (1 / 4, ([1; 2], 2)); (1 / 2, ([0; 1], 1))] [1; 1] /\
    powered 0 [(1 / 4, ([1; 2], 4)); (1 / 4, ([1; 2], 2)); (1 / 2, ([0; 1], 1))].
  Proof.
    destruct P2_law as (HP & HS & HQ). split; [exact HP|]. split; [exact HS|]. split; [exact HQ|]. split; [apply P2_best|]. split.
    { intros [|a [|b v]] Lv; try discriminate. unfold normsq, mean, P2, power. simpl. lra. }
    split; [|split].
    - exists (mkObj [0] 1 (1 / 2) None (XNLMS 1)). split; [|split; [reflexivity|cbn; lra]].
      apply (reach_new 1 rngR KNLMS (mkKw (Some 1%Z) (Some (1 / 2)) (Some (WStr "zeros")) (Some 1) None None None None None None None false)); [apply rngR_ok| |reflexivity|reflexivity].
      split; intros ? Hs; discriminate Hs.
    - intros h. unfold mean, lerr. cbn [map Rsum fst snd Rdot]. lra.
    - repeat constructor; unfold power; simpl; lra.
  Qed.
End S.
