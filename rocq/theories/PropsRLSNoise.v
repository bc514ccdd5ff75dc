(** C101: random noise on the targets averages out in RLS without forgetting, and in no other linear rule (exact real arithmetic). *)
From Coq Require Import Reals Lra Psatz.
From Verif Require Import Py Num Numpy Filters Registry Spec StructProofs RunProofs Reach RVec RFilter Steps RMat PropsStability PropsAlgebra
  PropsNoise PropsIID PropsNIID PropsRLS PropsRLSRate PropsConverge.
Open Scope R_scope.

(** ** Specification *)
(** the targets of the system ws with the noise s added *)
Definition noisy (ws : rvec) (x : list rvec) (s : list R) : rvec := map2 (fun v a => Rdot ws v + a) x s.
(** noise: independent draws from P, of mean zero and the given variance *)
Definition noise_law (P : law R) (var : R) : Prop := is_law P /\ mean P (fun a => a) = 0 /\ mean P (fun a => a ^ 2) = var.

Lemma noisy_length ws x s : length s = length x -> length (noisy ws x s) = length x.
Proof. intros H. unfold noisy. rewrite map2_len, H. apply Nat.min_id. Qed.
Lemma noisy_nth ws x s i : length s = length x -> (i < length x)%nat -> nth i (noisy ws x s) 0 = Rdot ws (nth i x []) + nth i s 0.
Proof. intros H Hi. unfold noisy. exact (map2_nth (fun v a => Rdot ws v + a) x s i [] 0 0 (eq_sym H) Hi). Qed.
Lemma noisy_app ws x s z a : length s = length x -> noisy ws (x ++ [z]) (s ++ [a]) = noisy ws x s ++ [Rdot ws z + a].
Proof.
  unfold noisy. revert s. induction x as [|v x IH]; intros [|b s] H; try discriminate; [reflexivity|]. cbn [app map2]. f_equal. apply IH. cbn in H. lia.
Qed.

(** ** Second moments of an affine combination of independent noise *)
Lemma expect_affine P var N : noise_law P var -> forall c (b : nat -> R),
  expect P N (fun s => c + sumn N (fun i => nth i s 0 * b i)) = c.
Proof.
  intros (HP & H0 & _). induction N as [|N IH]; intros c b; [cbn [expect sumn]; ring|].
  cbn [expect]. transitivity (mean P (fun a => c + b 0%nat * a)).
  - apply mean_ext. intros a _. rewrite <- (IH (c + b 0%nat * a) (fun i => b (S i))). apply expect_ext. intros s _.
    rewrite sumn_S_l. cbn [nth]. ring.
  - rewrite mean_plus, mean_const, mean_scal, H0 by exact HP. ring.
Qed.
Lemma expect_affine_sq P var N : noise_law P var -> forall c (b : nat -> R),
  expect P N (fun s => (c + sumn N (fun i => nth i s 0 * b i)) ^ 2) = c ^ 2 + var * sumn N (fun i => b i ^ 2).
Proof.
  intros (HP & H0 & H2). induction N as [|N IH]; intros c b; [cbn [expect sumn]; ring|].
  cbn [expect]. transitivity (mean P (fun a => (c ^ 2 + var * sumn N (fun i => b (S i) ^ 2)) + ((2 * c * b 0%nat) * a + (b 0%nat ^ 2) * a ^ 2))).
  - apply mean_ext. intros a _.
    transitivity ((c + b 0%nat * a) ^ 2 + var * sumn N (fun i => b (S i) ^ 2)); [|ring].
    rewrite <- (IH (c + b 0%nat * a) (fun i => b (S i))). apply expect_ext. intros s _.
    rewrite sumn_S_l. cbn [nth]. ring.
  - set (K := c ^ 2 + var * sumn N (fun i => b (S i) ^ 2)). rewrite (mean_plus P (fun _ => K)), (mean_const P K HP), (mean_plus P (fun a => 2 * c * b 0%nat * a)).
    rewrite !mean_scal, H0, H2, sumn_S_l. unfold K. ring.
Qed.

Lemma sumn_term n f i : (i < n)%nat -> (forall j, 0 <= f j) -> f i <= sumn n f.
Proof.
  intros Hi H. induction n as [|n IH]; [lia|]. cbn [sumn]. pose proof (sumn_nonneg n f (fun j _ => H j)). pose proof (H n).
  destruct (Nat.eq_dec i n) as [->|Hn]; [lra|]. specialize (IH ltac:(lia)). lra.
Qed.
(** ** Basis vectors *)
Definition basis (n j : nat) : rvec := map (delta j) (seq 0 n).
Lemma basis_len n j : length (basis n j) = n.
Proof. unfold basis. rewrite map_length, seq_length. reflexivity. Qed.
Lemma basis_nth n j l : (l < n)%nat -> nth l (basis n j) 0 = delta j l.
Proof. intros Hl. unfold basis. rewrite (nth_indep _ 0 (delta j 0)) by (rewrite map_length, seq_length; exact Hl). rewrite map_nth, seq_nth by exact Hl. reflexivity. Qed.
Lemma basis_dot n j v : length v = n -> (j < n)%nat -> Rdot (basis n j) v = nth j v 0.
Proof.
  intros Hv Hj. rewrite (Rdot_sumn n) by (auto using basis_len). rewrite <- (sumn_delta n j (fun i => nth i v 0) Hj).
  apply sumn_ext. intros i Hi. rewrite basis_nth by exact Hi. reflexivity.
Qed.

(** ** The operator *)
Section Op.
  Variables (mu eps : R) (x : list rvec) (n : nat).
  Hypothesis Hx : forall i, (i < length x)%nat -> length (nth i x []) = n.
  Notation A := (Aop mu eps x).
  Lemma A_quad k v : (k <= length x)%nat -> length v = n -> Rdot v (A k v) = excitation mu x k v + mu ^ k * eps * normsq v.
  Proof.
    intros Hk Hv. induction k as [|k IH]; cbn [Aop].
    - unfold excitation. cbn [sumn pow]. rewrite Rdot_vsc_r. unfold normsq. ring.
    - pose proof (A_len mu eps x n Hx k v ltac:(lia) Hv) as L1. pose proof (Hx k ltac:(lia)) as L2.
      rewrite Rdot_vadd_r by (rewrite !vsc_length; congruence). rewrite !Rdot_vsc_r, IH by lia. unfold excitation. cbn [sumn].
      replace (S k - 1 - k)%nat with 0%nat by lia. rewrite (Rdot_comm (nth k x []) v).
      rewrite (sumn_ext k (fun i => mu ^ (S k - 1 - i) * Rdot v (nth i x []) ^ 2) (fun i => mu * (mu ^ (k - 1 - i) * Rdot v (nth i x []) ^ 2))).
      + rewrite sumn_scal. cbn [pow]. ring.
      + intros i Hi. replace (S k - 1 - i)%nat with (S (k - 1 - i)) by lia. cbn [pow]. ring.
  Qed.
  Lemma A_upper X p q k : 0 < mu -> 0 < eps -> (k <= length x)%nat -> (forall i, (i < length x)%nat -> normsq (nth i x []) <= X) -> length p = n -> length q = n ->
    Rdot p (A k q) <= (mu ^ k * eps + X * sumn k (fun i => mu ^ (k - 1 - i))) * ((normsq p + normsq q) / 2).
  Proof.
    intros Hmu Heps Hk HX Hp Hq. induction k as [|k IH]; cbn [Aop].
    - cbn [sumn pow]. rewrite Rdot_vsc_r. pose proof (normsq_nonneg (vsub p q)) as H. rewrite normsq_vsub in H by congruence.
      assert (H' : 0 <= eps * (normsq p - 2 * Rdot p q + normsq q)) by (apply Rmult_le_pos; lra). lra.
    - pose proof (A_len mu eps x n Hx k q ltac:(lia) Hq) as L1. pose proof (Hx k ltac:(lia)) as L2. set (z := nth k x []) in *.
      rewrite Rdot_vadd_r by (rewrite !vsc_length; congruence). rewrite !Rdot_vsc_r. specialize (IH ltac:(lia)).
      apply (Rmult_le_compat_l mu) in IH; [|lra].
      assert (Ez : Rdot z q * Rdot p z <= X * ((normsq p + normsq q) / 2)).
      { pose proof (Cauchy_Schwarz z q) as C1. pose proof (Cauchy_Schwarz p z) as C2. pose proof (HX k ltac:(lia)) as HXk. fold z in HXk.
        pose proof (Rle_0_sqr (Rdot z q - Rdot p z)) as H. unfold Rsqr in H.
        pose proof (Rmult_le_compat_r (normsq q) _ _ (normsq_nonneg q) HXk). pose proof (Rmult_le_compat_l (normsq p) _ _ (normsq_nonneg p) HXk). lra. }
      eapply Rle_trans; [apply Rplus_le_compat; [exact IH|exact Ez]|]. cbn [sumn]. replace (S k - 1 - k)%nat with 0%nat by lia.
      rewrite (sumn_ext k (fun i => mu ^ (S k - 1 - i)) (fun i => mu * mu ^ (k - 1 - i))).
      + rewrite sumn_scal. cbn [pow]. right. ring.
      + intros i Hi. replace (S k - 1 - i)%nat with (S (k - 1 - i)) by lia. reflexivity.
  Qed.
End Op.

Section S.
  Variable solve : list rvec -> list rvec -> option (list rvec).
  #[local] Hint Extern 0 (Num R) => exact (RNum solve) : typeclass_instances.
  Notation obj := (obj R).

  (** the weights after the whole run, and the average of their squared distance to the system *)
  Definition trained (o : obj) (ws : rvec) (x : list rvec) (s : list R) : rvec := o_w (fst (run (noisy ws x s) x o)).
  Definition deviation (P : law R) (o : obj) (ws : rvec) (x : list rvec) : R :=
    expect P (length x) (fun s => distsq (trained o ws x s) ws).

  (** *** RLS *)
  Section R.
    Variables (rng : nat -> list R) (kw : kwargs R) (n : nat) (o : obj) (eps : R) (Q0 : rmat).
    Hypotheses (Hrng : rng_ok rng) (Hkw : sane_kw kw) (Hn : kw_n kw = Some (Z.of_nat n)) (Hnew : new_filter rng KRLS kw = Ok o)
      (Ex : o_ext o = XRLS eps Q0) (Heps : 0 < eps) (Hmu : 0 < o_mu o).
    Variables (ws : rvec) (x : list rvec).
    Hypotheses (Hws : length ws = n) (Hx : rows_of n x) (Hne : x <> []).
    Let N := length x.
    Let mu := o_mu o.

    Lemma rows_len : forall i, (i < length x)%nat -> length (nth i x []) = n.
    Proof. intros i Hi. apply nth_rows; auto. Qed.
    Lemma rls_wf : wf n o.
    Proof. exact (new_filter_wf rng KRLS kw n o Hrng Hkw Hn Hnew). Qed.
    Lemma rls_ext : o_ext o = XRLS eps (mscale (1 / eps) (identity n)).
    Proof. destruct (new_RLS solve rng kw n o Hnew Hn) as (e' & E'). rewrite E' in Ex. injection Ex as <- _. exact E'. Qed.
    Lemma rls_trained s : length s = length x -> best mu eps x n (o_w o) (noisy ws x s) N (trained o ws x s).
    Proof.
      intros Hs. pose proof rls_wf as Hwf. pose proof (noisy_length ws x s Hs) as Hd.
      destruct (rls_states solve n o (noisy ws x s) x eps Hwf Hx Hd rls_ext Hmu Heps N (le_n _)) as (_ & _ & Rk & _ & _ & HB).
      unfold trained. destruct (run_eq n o (noisy ws x s) x Hwf Hx Hd Hne) as (h & E & _). rewrite E.
      destruct (adapt_all_ok n (noisy ws x s) x o Hwf Hx) as (o' & r & Ea & _ & _ & _ & _).
      unfold state_after in HB. rewrite !firstn_all2 in HB by (unfold N; lia). rewrite Ea in HB |- *.
      destruct r; cbn [fst] in *; exact HB.
    Qed.
    Lemma rls_inverse : exists Rk, inverse_of solve mu eps x n N Rk.
    Proof.
      destruct (rls_states solve n o (repeat 0 N) x eps rls_wf Hx (repeat_length _ _) rls_ext Hmu Heps N (le_n _)) as (_ & _ & Rk & _ & HI & _).
      exists Rk. exact HI.
    Qed.

    Lemma rls_formula Rk s : inverse_of solve mu eps x n N Rk -> length s = length x -> forall z, length z = n ->
      Rdot z (vsub (trained o ws x s) ws) = mu ^ N * eps * Rdot z (mv Rk (vsub (o_w o) ws)) +
        sumn N (fun i => nth i s 0 * (mu ^ (N - 1 - i) * Rdot z (mv Rk (nth i x [])))).
    Proof.
      intros (HR & Hsy & H1 & H2) Hs z Hz. destruct (rls_trained s Hs) as (Lw & c & Hc). set (w := trained o ws x s) in *.
      pose proof rls_wf as (Lw0 & _). set (v0 := vsub (o_w o) ws). set (q := vsub w ws). set (u := mv Rk z).
      assert (Lu : length u = n) by (unfold u; rewrite (mv_len solve); apply HR).
      assert (Lq : length q = n) by (apply vsub_length; auto). assert (Lv0 : length v0 = n) by (apply vsub_length; auto).
      pose proof (A_len mu eps x n rows_len N q (le_n _) Lq) as LAq.
      assert (Lp : length (vadd ws u) = n) by (apply vadd_length; auto).
      assert (K : forall t, length t = n -> ls_cost mu eps (o_w o) (noisy ws x s) x N (vadd ws t) =
        sumn N (fun i => mu ^ (N - 1 - i) * (nth i s 0 - Rdot t (nth i x [])) ^ 2) + mu ^ N * eps * normsq (vsub t v0)).
      { intros t Lt. unfold ls_cost. f_equal.
        - apply sumn_ext. intros i Hi. rewrite noisy_nth by auto. pose proof (rows_len i Hi) as Li. rewrite Rdot_vadd_l by congruence. f_equal. ring.
        - f_equal. unfold distsq. f_equal. assert (length (vadd ws t) = n) by (apply vadd_length; auto).
          apply nth_ext0; [rewrite !(vsub_length _ _ n); auto|]. intros i _. rewrite !nth_vsub by congruence. unfold v0. rewrite nth_vsub, nth_vadd by congruence. ring. }
      assert (E0 : forall t, length t = n -> Rdot (vsub (vadd ws t) w) (Aop mu eps x N (vsub (vadd ws t) w)) =
        Rdot t (Aop mu eps x N t) - 2 * Rdot t (Aop mu eps x N q) + Rdot q (Aop mu eps x N q)).
      { intros t Lt. assert (Lt' : length (vadd ws t) = n) by (apply vadd_length; auto).
        assert (Et : vsub (vadd ws t) w = vsub t q).
        { apply nth_ext0; [rewrite !(vsub_length _ _ n); auto|]. intros i _. rewrite !nth_vsub by congruence. unfold q. rewrite nth_vsub, nth_vadd by congruence. ring. }
        pose proof (A_len mu eps x n rows_len N t (le_n _) Lt) as LAt.
        rewrite Et, (A_vsub mu eps x n rows_len) by (auto; unfold N; lia).
        rewrite Rdot_vsub_l, !Rdot_vsub_r by (rewrite ?(vsub_length _ _ n); auto; congruence).
        rewrite (A_sym mu eps x n rows_len N q t) by (auto; unfold N; lia). rewrite (Rdot_comm (Aop mu eps x N q) t). ring. }
      set (o0 := repeat 0 n). assert (Lo : length o0 = n) by apply repeat_length.
      pose proof (Hc (vadd ws u) Lp) as C1. pose proof (Hc (vadd ws o0) ltac:(apply vadd_length; auto)) as C0.
      rewrite (K u Lu), (E0 u Lu) in C1. rewrite (K o0 Lo), (E0 o0 Lo) in C0.
      rewrite (A_quad mu eps x n rows_len N u (le_n _) Lu) in C1. unfold o0 in C0.
      rewrite !Rdot_zero_l in C0.
      rewrite (sumn_ext N _ (fun i => mu ^ (N - 1 - i) * nth i s 0 ^ 2)) in C0 by (intros i _; rewrite Rdot_zero_l; f_equal; ring).
      rewrite (sumn_ext N _ (fun i => mu ^ (N - 1 - i) * nth i s 0 ^ 2 + (-2 * (nth i s 0 * (mu ^ (N - 1 - i) * Rdot u (nth i x []))) + mu ^ (N - 1 - i) * Rdot u (nth i x []) ^ 2))) in C1
        by (intros i _; ring).
      rewrite !sumn_plus, sumn_scal in C1. fold (excitation mu x N u) in C1.
      rewrite !normsq_vsub in C0 by (rewrite ?repeat_length; congruence). rewrite normsq_vsub in C1 by congruence.
      unfold normsq at 1 in C0. rewrite !Rdot_zero_l in C0.
      assert (Eu : Rdot u (Aop mu eps x N q) = Rdot z q).
      { rewrite (A_sym mu eps x n rows_len N u q) by (auto; unfold N; lia). unfold u. rewrite H1 by auto. reflexivity. }
      assert (Eu0 : Rdot z (mv Rk v0) = Rdot u v0) by (apply Hsy; auto).
      rewrite Eu in C1. rewrite Eu0.
      rewrite (sumn_ext N (fun i => nth i s 0 * (mu ^ (N - 1 - i) * Rdot z (mv Rk (nth i x [])))) (fun i => nth i s 0 * (mu ^ (N - 1 - i) * Rdot u (nth i x [])))).
      2:{ intros i Hi. do 2 f_equal. apply Hsy; auto. apply rows_len; exact Hi. }
      lra.
    Qed.

    Lemma normsq_coords v : length v = n -> normsq v = sumn n (fun j => nth j v 0 ^ 2).
    Proof. intros Hv. unfold normsq. rewrite (Rdot_sumn n) by auto. apply sumn_ext. intros; ring. Qed.

    Lemma rls_coord Rk s j : inverse_of solve mu eps x n N Rk -> length s = length x -> (j < n)%nat ->
      nth j (vsub (trained o ws x s) ws) 0 = mu ^ N * eps * nth j (mv Rk (vsub (o_w o) ws)) 0 +
        sumn N (fun i => nth i s 0 * (mu ^ (N - 1 - i) * nth j (mv Rk (nth i x [])) 0)).
    Proof.
      intros HI Hs Hj. destruct (rls_trained s Hs) as (Lw & _). pose proof (rls_formula Rk s HI Hs (basis n j) (basis_len n j)) as E.
      destruct HI as ((HR & _) & _).
      rewrite !basis_dot in E by (auto; try (apply vsub_length; auto); rewrite (mv_len solve); exact HR). rewrite E. f_equal. apply sumn_ext. intros i Hi.
      rewrite basis_dot by (auto; rewrite (mv_len solve); exact HR). reflexivity.
    Qed.

    Lemma rls_exact P var Rk : noise_law P var -> inverse_of solve mu eps x n N Rk ->
      (forall j, (j < n)%nat -> expect P N (fun s => nth j (trained o ws x s) 0) = nth j ws 0 + mu ^ N * eps * nth j (mv Rk (vsub (o_w o) ws)) 0) /\
      deviation P o ws x = (mu ^ N * eps) ^ 2 * normsq (mv Rk (vsub (o_w o) ws)) +
        var * sumn N (fun i => (mu ^ (N - 1 - i)) ^ 2 * normsq (mv Rk (nth i x []))).
    Proof.
      intros HP HI. pose proof HI as ((HR & _) & _).
      assert (Lv : forall v, length (mv Rk v) = n) by (intros; rewrite (mv_len solve); exact HR).
      split.
      - intros j Hj. rewrite <- (expect_affine P var N HP (nth j ws 0 + mu ^ N * eps * nth j (mv Rk (vsub (o_w o) ws)) 0) (fun i => mu ^ (N - 1 - i) * nth j (mv Rk (nth i x [])) 0)).
        apply expect_ext. intros s (Hs & _). destruct (rls_trained s Hs) as (Lw & _).
        pose proof (rls_coord Rk s j HI Hs Hj) as E. rewrite nth_vsub in E by congruence. rewrite Rplus_assoc, <- E. ring.
      - unfold deviation. fold N.
        transitivity (expect P N (fun s => sumn n (fun j => (mu ^ N * eps * nth j (mv Rk (vsub (o_w o) ws)) 0 +
            sumn N (fun i => nth i s 0 * (mu ^ (N - 1 - i) * nth j (mv Rk (nth i x [])) 0))) ^ 2))).
        { apply expect_ext. intros s (Hs & _). destruct (rls_trained s Hs) as (Lw & _). unfold distsq. rewrite normsq_coords by (apply vsub_length; auto).
          apply sumn_ext. intros j Hj. rewrite (rls_coord Rk s j HI Hs Hj). reflexivity. }
        rewrite expect_sum. rewrite (sumn_ext n _ (fun j => (mu ^ N * eps) ^ 2 * nth j (mv Rk (vsub (o_w o) ws)) 0 ^ 2 +
          var * sumn N (fun i => (mu ^ (N - 1 - i)) ^ 2 * nth j (mv Rk (nth i x [])) 0 ^ 2))).
        2:{ intros j Hj. rewrite (expect_affine_sq P var N HP). f_equal; [ring|]. f_equal. apply sumn_ext. intros; ring. }
        rewrite sumn_plus, !sumn_scal, sumn_swap. rewrite <- normsq_coords by auto. f_equal. f_equal. apply sumn_ext. intros i Hi.
        rewrite sumn_scal, <- normsq_coords by auto. reflexivity.
    Qed.

    Lemma rls_gram : exists Rk, inverse_of solve mu eps x n N Rk /\ (forall d, length d = N -> o_ext (state_after N d x o) = XRLS eps Rk) /\
      forall i j, (i < n)%nat -> (j < n)%nat -> sumn n (fun l => ent Rk i l * ls_gram mu eps x N l j) = delta i j.
    Proof.
      destruct (rls_states solve n o (repeat 0 N) x eps rls_wf Hx (repeat_length _ _) rls_ext Hmu Heps N (le_n _)) as (_ & _ & Rk & Ek & HI & _).
      destruct (C21_inverse_correlation solve rng kw n o eps Q0 (repeat 0 N) x Hrng Hkw Hn Hnew Ex Heps Hmu Hx (repeat_length _ _) N (le_n _)) as (Rk' & Ek' & _ & HG).
      rewrite Ek in Ek'. injection Ek' as <-. exists Rk. split; [exact HI|]. split; [|intros i j Hi Hj; apply (HG i j Hi Hj)].
      intros d Hd. destruct (rls_states solve n o d x eps rls_wf Hx Hd rls_ext Hmu Heps N (le_n _)) as (_ & _ & R2 & E2 & HI2 & _).
      rewrite E2. f_equal. destruct HI as (HS & Hsy & H1 & H2), HI2 as (HS2 & Hsy2 & G1 & G2).
      apply (mv_ext solve n n); auto. intros v Hv. rewrite <- (H1 v Hv) at 1. apply G2. rewrite (mv_len solve). apply HS.
    Qed.

    Lemma rls_trace Rk : mu = 1 -> inverse_of solve mu eps x n N Rk ->
      (forall i j, (i < n)%nat -> (j < n)%nat -> sumn n (fun l => ent Rk i l * ls_gram mu eps x N l j) = delta i j) ->
      sumn N (fun i => Rdot (nth i x []) (mv Rk (nth i x []))) <= INR n.
    Proof.
      intros H1 HI HG. pose proof HI as (HS & Hsy & HA & _).
      assert (Lv : forall v, length (mv Rk v) = n) by (intros; rewrite (mv_len solve); apply HS).
      assert (Hd : forall j, (j < n)%nat -> 0 <= ent Rk j j).
      { intros j Hj. pose proof (A_pos mu eps x n rows_len N (mv Rk (basis n j)) Hmu (le_n _) (Lv _)) as H. rewrite HA in H by apply basis_len.
        rewrite Rdot_comm, basis_dot in H by auto. rewrite (mv_ent solve n n) in H by (auto using basis_len).
        rewrite (sumn_ext n _ (fun l => (if Nat.eqb j l then 1 else 0) * ent Rk j l)) in H
          by (intros l Hl; rewrite basis_nth by exact Hl; unfold delta; ring).
        rewrite sumn_delta in H by exact Hj. eapply Rle_trans; [|exact H]. pose proof (pow_lt mu N Hmu).
        apply Rmult_le_pos; [apply Rmult_le_pos; lra|apply normsq_nonneg]. }
      assert (E : sumn N (fun i => Rdot (nth i x []) (mv Rk (nth i x []))) = sumn n (fun j => 1 - eps * ent Rk j j)).
      { transitivity (sumn n (fun j => sumn n (fun l => ent Rk j l * sumn N (fun i => nth l (nth i x []) 0 * nth j (nth i x []) 0)))).
        - rewrite (sumn_ext N _ (fun i => sumn n (fun j => sumn n (fun l => ent Rk j l * (nth l (nth i x []) 0 * nth j (nth i x []) 0))))).
          + rewrite sumn_swap. apply sumn_ext. intros j Hj. rewrite sumn_swap. apply sumn_ext. intros l Hl. apply sumn_scal.
          + intros i Hi. pose proof (rows_len i Hi) as Li. rewrite (Rdot_sumn n) by auto. apply sumn_ext. intros j Hj.
            rewrite (mv_ent solve n n) by auto. rewrite <- sumn_scal. apply sumn_ext. intros; ring.
        - apply sumn_ext. intros j Hj. pose proof (HG j j Hj Hj) as G. unfold delta in G. rewrite Nat.eqb_refl in G. rewrite <- G.
          rewrite <- (sumn_delta n j (fun l => ent Rk j l) Hj). rewrite <- sumn_scal, <- sumn_minus. apply sumn_ext. intros l Hl.
          unfold ls_gram. rewrite H1. rewrite (sumn_ext N (fun t => 1 ^ (N - 1 - t) * _) (fun i => nth l (nth i x []) 0 * nth j (nth i x []) 0)) by (intros; rewrite pow1; ring).
          rewrite pow1, (Nat.eqb_sym l j). destruct (Nat.eqb j l); ring. }
      rewrite E. clear E. assert (En : INR n = sumn n (fun _ => 1)).
      { generalize n. intros m. induction m as [|m IHm]; [reflexivity|]. rewrite S_INR, IHm. reflexivity. }
      rewrite En. apply sumn_le. intros j Hj. pose proof (Rmult_le_pos eps _ ltac:(lra) (Hd j Hj)). lra.
    Qed.

    Lemma rls_upper P var lam : noise_law P var -> mu = 1 -> 0 <= lam ->
      (forall v, length v = n -> lam * normsq v <= sumn N (fun i => Rdot v (nth i x []) ^ 2)) ->
      deviation P o ws x <= (eps / (eps + lam)) ^ 2 * distsq (o_w o) ws + INR n * var / (eps + lam).
    Proof.
      intros HP H1 Hlam Hexc. destruct rls_gram as (Rk & HI & _ & HG). destruct (rls_exact P var Rk HP HI) as (_ & ->).
      pose proof (rls_trace Rk H1 HI HG) as HT. pose proof HI as (HS & Hsy & HA & _). pose proof rls_wf as (Lw0 & _).
      assert (Lv : forall v, length (mv Rk v) = n) by (intros; rewrite (mv_len solve); apply HS).
      assert (HK : forall v, length v = n -> (eps + lam) * normsq (mv Rk v) <= Rdot v (mv Rk v)).
      { intros v Hv. rewrite <- (HA v Hv) at 2. rewrite Rdot_comm, (A_quad mu eps x n rows_len) by (auto; unfold N; lia).
        unfold excitation. rewrite H1. rewrite (sumn_ext N _ (fun i => Rdot (mv Rk v) (nth i x []) ^ 2)) by (intros; rewrite pow1; ring).
        rewrite pow1. pose proof (Hexc _ (Lv v)). lra. }
      assert (Hvar : 0 <= var).
      { destruct HP as (HP & _ & <-). rewrite <- (mean_const P 0 HP). apply mean_le; [exact HP|]. intros a _. apply pow2_ge_0. }
      set (v0 := vsub (o_w o) ws). assert (Lv0 : length v0 = n) by (apply vsub_length; auto). set (K := eps + lam) in *. assert (HK0 : 0 < K) by (unfold K; lra).
      apply Rplus_le_compat.
      - rewrite H1, pow1, Rmult_1_l. unfold distsq. fold v0. unfold Rdiv. rewrite Rpow_mult_distr, Rmult_assoc. apply Rmult_le_compat_l; [apply pow2_ge_0|].
        pose proof (HK v0 Lv0) as HH. pose proof (Cauchy_Schwarz v0 (mv Rk v0)) as HC. pose proof (normsq_nonneg (mv Rk v0)) as Hp. pose proof (normsq_nonneg v0) as Hp0.
        set (r := normsq (mv Rk v0)) in *. set (t := Rdot v0 (mv Rk v0)) in *. set (m := normsq v0) in *.
        destruct (Req_dec r 0) as [->|Hr]; [apply Rmult_le_pos; [apply pow2_ge_0|exact Hp0]|].
        apply Rmult_le_reg_l with (K ^ 2); [apply pow_lt; exact HK0|].
        replace (K ^ 2 * ((/ K) ^ 2 * m)) with m by (field; lra).
        apply Rmult_le_reg_r with r; [lra|].
        assert (Hs : (K * r) * (K * r) <= t * t) by (apply Rmult_le_compat; try exact HH; apply Rmult_le_pos; lra). lra.
      - replace (INR n * var / K) with (var * (/ K * INR n)) by (unfold Rdiv; ring). apply Rmult_le_compat_l; [exact Hvar|].
        eapply Rle_trans; [|apply Rmult_le_compat_l; [left; apply Rinv_0_lt_compat; exact HK0|exact HT]].
        rewrite <- sumn_scal. apply sumn_le. intros i Hi. rewrite H1, pow1, pow1, Rmult_1_l. pose proof (HK _ (rows_len i Hi)) as HH.
        apply Rmult_le_reg_l with K; [exact HK0|]. rewrite <- Rmult_assoc, Rinv_r, Rmult_1_l by lra. exact HH.
    Qed.

    Lemma geo_sum k : 0 < mu < 1 -> sumn k (fun i => mu ^ (k - 1 - i)) <= / (1 - mu).
    Proof.
      intros Hm. enough (H : sumn k (fun i => mu ^ (k - 1 - i)) = (1 - mu ^ k) / (1 - mu)).
      { rewrite H. unfold Rdiv. rewrite <- (Rmult_1_l (/ (1 - mu))) at 2. apply Rmult_le_compat_r; [left; apply Rinv_0_lt_compat; lra|].
        pose proof (pow_lt mu k ltac:(lra)). lra. }
      induction k as [|k IH]; [cbn [sumn pow]; field; lra|]. cbn [sumn]. replace (S k - 1 - k)%nat with 0%nat by lia.
      rewrite (sumn_ext k _ (fun i => mu * mu ^ (k - 1 - i))).
      - rewrite sumn_scal, IH. cbn [pow]. field. lra.
      - intros i Hi. replace (S k - 1 - i)%nat with (S (k - 1 - i)) by lia. reflexivity.
    Qed.

    Lemma rls_lower P var X : noise_law P var -> mu < 1 -> (forall i, (i < length x)%nat -> normsq (nth i x []) <= X) ->
      var * normsq (nth (N - 1) x []) / (mu ^ N * eps + X / (1 - mu)) ^ 2 <= deviation P o ws x.
    Proof.
      intros HP Hm1 HX. destruct rls_inverse as (Rk & HI). destruct (rls_exact P var Rk HP HI) as (_ & ->).
      assert (HN : (0 < N)%nat) by (unfold N; destruct x; [congruence|cbn; lia]).
      pose proof HI as (HS & Hsy & HA & _). assert (Lv : forall v, length (mv Rk v) = n) by (intros; rewrite (mv_len solve); apply HS).
      assert (Hvar : 0 <= var).
      { destruct HP as (HP & _ & <-). rewrite <- (mean_const P 0 HP). apply mean_le; [exact HP|]. intros a _. apply pow2_ge_0. }
      set (C := mu ^ N * eps + X / (1 - mu)). set (z := nth (N - 1) x []). pose proof (rows_len (N - 1) ltac:(unfold N in *; lia)) as Lz. fold z in Lz.
      assert (HX0 : 0 <= X) by (eapply Rle_trans; [apply normsq_nonneg|apply (HX (N - 1)%nat); unfold N in *; lia]).
      assert (HC : 0 < C).
      { unfold C. apply Rplus_lt_le_0_compat; [apply Rmult_lt_0_compat; [apply pow_lt; exact Hmu|lra]|]. apply Rmult_le_pos; [exact HX0|left; apply Rinv_0_lt_compat; lra]. }
      assert (Hz : normsq z <= C ^ 2 * normsq (mv Rk z)).
      { pose proof (A_upper mu eps x n rows_len X z (vsc C (mv Rk z)) N Hmu Heps (le_n _) HX Lz ltac:(rewrite vsc_length; auto)) as H.
        rewrite (A_vsc mu eps x n rows_len), Rdot_vsc_r, HA in H by (auto; unfold N; lia). fold (normsq z) in H. rewrite normsq_vsc in H.
        pose proof (normsq_nonneg (mv Rk z)) as Hp. pose proof (normsq_nonneg z) as Hpz. set (r := normsq (mv Rk z)) in *. set (m := normsq z) in *.
        assert (H' : C * m <= C * ((m + C * C * r) / 2)).
        { eapply Rle_trans; [exact H|]. apply Rmult_le_compat_r.
          - pose proof (Rmult_le_pos _ _ (Rle_0_sqr C) Hp) as Hq. unfold Rsqr in Hq. lra.
          - unfold C. apply Rplus_le_compat_l. unfold Rdiv. apply Rmult_le_compat_l; [exact HX0|]. apply geo_sum. fold mu in Hmu. lra. }
        apply Rmult_le_reg_l in H'; [|exact HC]. lra. }
      assert (Hs : normsq (mv Rk z) <= sumn N (fun i => (mu ^ (N - 1 - i)) ^ 2 * normsq (mv Rk (nth i x [])))).
      { pose proof (sumn_term N (fun i => (mu ^ (N - 1 - i)) ^ 2 * normsq (mv Rk (nth i x []))) (N - 1) ltac:(lia)) as H. cbv beta in H.
        rewrite Nat.sub_diag in H. fold z in H. cbn [pow] in H. rewrite !Rmult_1_l in H. apply H.
        intros i. apply Rmult_le_pos; [exact (pow2_ge_0 (mu ^ (N - 1 - i)))|apply normsq_nonneg]. }
      apply Rle_trans with (var * normsq (mv Rk z)).
      - unfold Rdiv. rewrite Rmult_assoc. apply Rmult_le_compat_l; [exact Hvar|].
        apply Rmult_le_reg_l with (C ^ 2); [apply pow_lt; exact HC|]. replace (C ^ 2 * (normsq z * / C ^ 2)) with (normsq z) by (field; lra). exact Hz.
      - apply (Rmult_le_compat_l var) in Hs; [|exact Hvar].
        assert (0 <= (mu ^ N * eps) ^ 2 * normsq (mv Rk (vsub (o_w o) ws))) by (apply Rmult_le_pos; [apply pow2_ge_0|apply normsq_nonneg]). lra.
    Qed.
  End R.

  (** *** C101.  RLS: the exact mean of the weights and the exact mean squared deviation from the system, for every number of samples,
      every forgetting factor, every input and every law of the noise.  Q, the matrix the filter stores at the end whatever the
      targets were, is the inverse of the weighted correlation matrix of the inputs. *)
  Theorem C101_RLS_exact : forall rng (kw : kwargs R) n (o : obj) eps Q0 ws x P var,
    rng_ok rng -> sane_kw kw -> kw_n kw = Some (Z.of_nat n) -> new_filter rng KRLS kw = Ok o ->
    o_ext o = XRLS eps Q0 -> 0 < eps -> 0 < o_mu o ->
    length ws = n -> rows_of n x -> x <> [] -> noise_law P var ->
    let N := length x in let mu := o_mu o in
    exists Q, (forall d, length d = N -> o_ext (state_after N d x o) = XRLS eps Q) /\ shape n n Q /\
      (forall i j, (i < n)%nat -> (j < n)%nat -> sumn n (fun l => ent Q i l * ls_gram mu eps x N l j) = delta i j) /\
      (forall j, (j < n)%nat -> expect P N (fun s => nth j (trained o ws x s) 0) = nth j ws 0 + mu ^ N * eps * nth j (mv Q (vsub (o_w o) ws)) 0) /\
      deviation P o ws x = (mu ^ N * eps) ^ 2 * normsq (mv Q (vsub (o_w o) ws)) +
        var * sumn N (fun i => (mu ^ (N - 1 - i)) ^ 2 * normsq (mv Q (nth i x []))).
  Proof.
    intros rng kw n o eps Q0 ws x P var Hrng Hkw Hn Hnew Ex Heps Hmu Hws Hx Hne HP N mu.
    destruct (rls_gram rng kw n o eps Q0 Hrng Hkw Hn Hnew Ex Heps Hmu x Hx) as (Rk & HI & HE & HG).
    exists Rk. split; [exact HE|]. split; [apply HI|]. split; [exact HG|].
    exact (rls_exact rng kw n o eps Q0 Hrng Hkw Hn Hnew Ex Heps Hmu ws x Hws Hx Hne P var Rk HP HI).
  Qed.

  (** without forgetting: if the inputs have excited every direction with strength lam, the mean squared deviation is at most
      (eps / (eps + lam))^2 |w0 - ws|^2 + n var / (eps + lam) *)
  Theorem C101_RLS_averages : forall rng (kw : kwargs R) n (o : obj) eps Q0 ws x P var lam,
    rng_ok rng -> sane_kw kw -> kw_n kw = Some (Z.of_nat n) -> new_filter rng KRLS kw = Ok o ->
    o_ext o = XRLS eps Q0 -> 0 < eps -> o_mu o = 1 ->
    length ws = n -> rows_of n x -> x <> [] -> noise_law P var -> 0 <= lam ->
    (forall v, length v = n -> lam * normsq v <= sumn (length x) (fun i => Rdot v (nth i x []) ^ 2)) ->
    deviation P o ws x <= (eps / (eps + lam)) ^ 2 * distsq (o_w o) ws + INR n * var / (eps + lam).
  Proof.
    intros rng kw n o eps Q0 ws x P var lam Hrng Hkw Hn Hnew Ex Heps Hmu Hws Hx Hne HP Hlam Hexc.
    exact (rls_upper rng kw n o eps Q0 Hrng Hkw Hn Hnew Ex Heps ltac:(lra) ws x Hws Hx Hne P var lam HP Hmu Hlam Hexc).
  Qed.

  (** so on endless data with persistently exciting inputs the mean squared deviation tends to 0 although the noise never stops *)
  Theorem C101_RLS_consistent : forall rng (kw : kwargs R) n (o : obj) eps Q0 ws (xx : nat -> rvec) P var m alpha,
    rng_ok rng -> sane_kw kw -> kw_n kw = Some (Z.of_nat n) -> new_filter rng KRLS kw = Ok o ->
    o_ext o = XRLS eps Q0 -> 0 < eps -> o_mu o = 1 ->
    length ws = n -> (forall k, length (xx k) = n) -> noise_law P var -> (0 < m)%nat -> exciting n m alpha xx ->
    Un_cv (fun N => deviation P o ws (first N xx)) 0.
  Proof.
    intros rng kw n o eps Q0 ws xx P var m alpha Hrng Hkw Hn Hnew Ex Heps Hmu Hws Hxx HP Hm (Ha & Hexc).
    assert (Hvar : 0 <= var).
    { destruct HP as (HP & _ & <-). rewrite <- (mean_const P 0 HP). apply mean_le; [exact HP|]. intros a _. apply pow2_ge_0. }
    set (D := distsq (o_w o) ws). assert (HD : 0 <= D) by apply normsq_nonneg.
    set (K := eps * D + INR n * var). assert (HK : 0 <= K).
    { unfold K. pose proof (Rmult_le_pos eps D ltac:(lra) HD). pose proof (Rmult_le_pos _ _ (pos_INR n) Hvar). lra. }
    assert (HB : forall N q, (0 < N)%nat -> (q * m <= N)%nat -> deviation P o ws (first N xx) <= K / (eps + INR q * alpha)).
    { intros N q HN Hq.
      assert (Hrows : rows_of n (first N xx)).
      { unfold first. apply Forall_forall. intros r Hin. apply in_map_iff in Hin as (k & <- & _). apply Hxx. }
      assert (Hne : first N xx <> []) by (intros H; apply (f_equal (@length rvec)) in H; rewrite first_length in H; cbn in H; lia).
      pose proof (pos_INR q) as Hqp. assert (Hla : 0 <= INR q * alpha) by (apply Rmult_le_pos; lra).
      eapply Rle_trans; [apply (C101_RLS_averages rng kw n o eps Q0 ws (first N xx) P var (INR q * alpha)); auto|].
      - intros v Hv. rewrite first_length. replace N with (q * m + (N - q * m))%nat by lia. rewrite sumn_split.
        assert (H0 : 0 <= sumn (N - q * m) (fun i => Rdot v (nth (q * m + i) (first (q * m + (N - q * m)) xx) []) ^ 2)) by (apply sumn_nonneg; intros; apply pow2_ge_0).
        enough (INR q * alpha * normsq v <= sumn (q * m) (fun i => Rdot v (nth i (first (q * m + (N - q * m)) xx) []) ^ 2)) by lra. clear H0.
        rewrite (sumn_ext _ _ (fun i => Rdot v (xx i) ^ 2)) by (intros i Hi; rewrite first_nth by lia; reflexivity).
        clear - Hexc Hv. induction q as [|q IH]; [cbn; lra|]. replace (S q * m)%nat with (q * m + m)%nat by lia. rewrite sumn_split, S_INR.
        pose proof (Hexc (q * m)%nat v Hv) as H. unfold total in H. rewrite Rsum_sumn, map_length, seq_length in H.
        rewrite (sumn_ext m _ (fun i => Rdot v (xx (q * m + i)%nat) ^ 2)) in H; [lra|].
        intros i Hi. rewrite (nth_indep _ 0 (Rdot v (xx (q * m + 0)%nat) ^ 2)) by (rewrite map_length, seq_length; exact Hi).
        rewrite (map_nth (fun i => Rdot v (xx (q * m + i)%nat) ^ 2) (seq 0 m) 0%nat), seq_nth by exact Hi. reflexivity.
      - fold D. unfold K. set (T := eps + INR q * alpha). assert (HT : 0 < T) by (unfold T; lra).
        assert (Hi : 0 < / T) by (apply Rinv_0_lt_compat; exact HT).
        assert (Hr : eps / T <= 1) by (apply Rmult_le_reg_r with T; [exact HT|]; unfold Rdiv; rewrite Rmult_assoc, Rinv_l by lra; unfold T; lra).
        assert (Hr0 : 0 <= eps / T) by (apply Rmult_le_pos; lra).
        assert (Hsq : (eps / T) ^ 2 * D <= eps / T * D).
        { apply Rmult_le_compat_r; [exact HD|]. cbn [pow]. rewrite Rmult_1_r. rewrite <- (Rmult_1_r (eps / T)) at 3. apply Rmult_le_compat_l; auto. }
        eapply Rle_trans; [apply Rplus_le_compat_r; exact Hsq|]. right. field. lra. }
    intros dl Hdl. destruct (archimed_cor1 (dl * alpha / (K + 1))) as (q & Hq & Hq0).
    { unfold Rdiv. apply Rmult_lt_0_compat; [apply Rmult_lt_0_compat; lra|apply Rinv_0_lt_compat; lra]. }
    exists (S (q * m)). intros N HN. unfold R_dist. rewrite Rminus_0_r.
    assert (Hp : 0 <= deviation P o ws (first N xx)).
    { unfold deviation. rewrite <- (expect_0 P (length (first N xx))). apply expect_le; [apply HP|]. intros s _. apply normsq_nonneg. }
    rewrite Rabs_pos_eq by exact Hp. eapply Rle_lt_trans; [apply (HB N q); lia|].
    assert (HqR : 0 < INR q) by (apply lt_0_INR; exact Hq0).
    assert (Hqa : 0 < INR q * alpha) by (apply Rmult_lt_0_compat; auto).
    apply Rmult_lt_reg_r with (eps + INR q * alpha); [lra|]. unfold Rdiv. rewrite Rmult_assoc, Rinv_l, Rmult_1_r by lra.
    apply (Rmult_lt_compat_r (INR q * (K + 1))) in Hq; [|apply Rmult_lt_0_compat; lra].
    replace (/ INR q * (INR q * (K + 1))) with (K + 1) in Hq by (field; lra).
    replace (dl * alpha / (K + 1) * (INR q * (K + 1))) with (dl * (INR q * alpha)) in Hq by (field; lra).
    pose proof (Rmult_lt_0_compat _ _ Hdl Heps). lra.
  Qed.

  (** with forgetting there is a floor: the last sample's noise is not averaged away, however many samples came before *)
  Theorem C101_RLS_forgetting_floor : forall rng (kw : kwargs R) n (o : obj) eps Q0 ws x z P var X,
    rng_ok rng -> sane_kw kw -> kw_n kw = Some (Z.of_nat n) -> new_filter rng KRLS kw = Ok o ->
    o_ext o = XRLS eps Q0 -> 0 < eps -> 0 < o_mu o < 1 ->
    length ws = n -> rows_of n (x ++ [z]) -> noise_law P var -> Forall (fun v => normsq v <= X) (x ++ [z]) ->
    var * normsq z / (o_mu o ^ S (length x) * eps + X / (1 - o_mu o)) ^ 2 <= deviation P o ws (x ++ [z]).
  Proof.
    intros rng kw n o eps Q0 ws x z P var X Hrng Hkw Hn Hnew Ex Heps Hmu Hws Hx HP HX.
    assert (Hne : x ++ [z] <> []) by (destruct x; discriminate).
    pose proof (rls_lower rng kw n o eps Q0 Hrng Hkw Hn Hnew Ex Heps (proj1 Hmu) ws (x ++ [z]) Hws Hx Hne P var X HP (proj2 Hmu)) as H.
    rewrite app_length in H. cbn [length] in H. replace (length x + 1 - 1)%nat with (length x) in H by lia. rewrite nth_middle in H.
    replace (length x + 1)%nat with (S (length x)) in H by lia. apply H. intros i Hi. apply (proj1 (Forall_forall _ _) HX), nth_In. rewrite app_length. cbn. lia.
  Qed.

  (** *** LMS and NLMS: a floor at every moment *)
  Lemma combine_fst {A B} (u : list A) (v : list B) : length u = length v -> map fst (combine u v) = u.
  Proof. revert v. induction u as [|a u IH]; intros [|b v] H; try discriminate; [reflexivity|]. cbn. f_equal. apply IH. cbn in H. lia. Qed.
  Lemma combine_snd {A B} (u : list A) (v : list B) : length u = length v -> map snd (combine u v) = v.
  Proof. revert v. induction u as [|a u IH]; intros [|b v] H; try discriminate; [reflexivity|]. cbn. f_equal. apply IH. cbn in H. lia. Qed.
  Lemma combine_last {A B} (u : list A) (v : list B) a b : length u = length v -> combine (u ++ [a]) (v ++ [b]) = combine u v ++ [(a, b)].
  Proof. revert v. induction u as [|c u IH]; intros [|d v] H; try discriminate; [reflexivity|]. cbn. f_equal. apply IH. cbn in H. lia. Qed.

  Lemma floor_gen n (o : obj) ws x z P var g : noise_law P var -> length ws = n -> length z = n ->
    (forall s : list R, length s = length x -> exists w, length w = n /\ forall a : R, trained o ws (x ++ [z]) (s ++ [a]) = vadd w (vsc (g * (Rdot ws z + a - Rdot w z)) z)) ->
    var * g ^ 2 * normsq z <= deviation P o ws (x ++ [z]).
  Proof.
    intros HP Hws Hz HW. unfold deviation. rewrite app_length. cbn [length]. rewrite Nat.add_1_r, expect_last.
    destruct HP as (HP & H0 & H2). rewrite <- (expect_const P (length x) (var * g ^ 2 * normsq z) HP). apply expect_le; [exact HP|].
    intros s (Hs & _). destruct (HW s Hs) as (w & Lw & E).
    set (v := vsub w ws). assert (Lv : length v = n) by (apply vsub_length; auto).
    set (q := vadd v (vsc (- (g * Rdot v z)) z)). assert (Lq : length q = n) by (apply vadd_length; rewrite ?vsc_length; auto).
    rewrite (mean_ext P _ (fun a => normsq q + ((2 * g * Rdot q z) * a + (g ^ 2 * normsq z) * a ^ 2))).
    - rewrite (mean_plus P (fun _ => normsq q)), (mean_const P _ HP), (mean_plus P (fun a => 2 * g * Rdot q z * a)), !mean_scal, H0, H2.
      pose proof (normsq_nonneg q). lra.
    - intros a _. rewrite E. unfold distsq.
      replace (vsub (vadd w (vsc (g * (Rdot ws z + a - Rdot w z)) z)) ws) with (vadd q (vsc (g * a) z)).
      + rewrite normsq_vadd, normsq_vsc, Rdot_vsc_r by (rewrite ?vsc_length; congruence). ring.
      + assert (length (vadd w (vsc (g * (Rdot ws z + a - Rdot w z)) z)) = n) by (apply vadd_length; rewrite ?vsc_length; auto).
        apply nth_ext0; [rewrite (vadd_length _ _ n), (vsub_length _ _ n); rewrite ?vsc_length; auto|]. intros i _.
        rewrite nth_vsub by congruence. rewrite !nth_vadd by (rewrite ?vsc_length; congruence). unfold q. rewrite nth_vadd by (rewrite ?vsc_length; congruence).
        rewrite !nth_vsc. unfold v. rewrite nth_vsub, Rdot_vsub_l by congruence. ring.
  Qed.

  Theorem C101_LMS_floor : forall n (o : obj) ws x z P var,
    reachable n o -> o_ext o = XLMS -> length ws = n -> rows_of n (x ++ [z]) -> noise_law P var ->
    var * o_mu o ^ 2 * normsq z <= deviation P o ws (x ++ [z]).
  Proof.
    intros n o ws x z P var Hr Ex Hws Hx HP. pose proof (proj1 (Forall_app _ _ _) Hx) as (Hx1 & Hx2). pose proof (Forall_inv Hx2) as Hz.
    apply (floor_gen n); auto. intros s Hs. pose proof (noisy_length ws x s Hs) as Hl.
    pose proof (reachable_wf _ _ Hr) as (Lw & _).
    assert (HF : Forall (fun a : sample => length (fst a) = n) (combine x (noisy ws x s))).
    { rewrite <- (combine_fst x (noisy ws x s)) in Hx1 by congruence. apply Forall_map in Hx1. exact Hx1. }
    exists (lrun (o_mu o) (o_w o) (combine x (noisy ws x s))). split; [apply lrun_length; auto|]. intros a.
    assert (HF' : Forall (fun a : sample => length (fst a) = n) (combine x (noisy ws x s) ++ [(z, Rdot ws z + a)])) by (apply Forall_app; split; [exact HF|repeat constructor; exact Hz]).
    destruct (lms_run solve n o _ Hr Ex HF') as (E & _). unfold weights_after in E. rewrite lrun_last in E.
    unfold trained. rewrite noisy_app by exact Hs. rewrite !map_app, combine_fst, combine_snd in E by congruence. exact E.
  Qed.

  Theorem C101_NLMS_floor : forall n (o : obj) eps ws x z P var,
    reachable n o -> o_ext o = XNLMS eps -> length ws = n -> rows_of n (x ++ [z]) -> Forall (fun v => 0 < eps + normsq v) (x ++ [z]) -> noise_law P var ->
    var * (o_mu o / (eps + normsq z)) ^ 2 * normsq z <= deviation P o ws (x ++ [z]).
  Proof.
    intros n o eps ws x z P var Hr Ex Hws Hx Hq HP. pose proof (proj1 (Forall_app _ _ _) Hx) as (Hx1 & Hx2). pose proof (Forall_inv Hx2) as Hz.
    pose proof (proj1 (Forall_app _ _ _) Hq) as (Hq1 & Hq2). pose proof (Forall_inv Hq2) as Hqz.
    apply (floor_gen n); auto. intros s Hs. pose proof (noisy_length ws x s Hs) as Hl.
    pose proof (reachable_wf _ _ Hr) as (Lw & _).
    assert (HF : Forall (fun a : sample => length (fst a) = n) (combine x (noisy ws x s))).
    { rewrite <- (combine_fst x (noisy ws x s)) in Hx1 by congruence. apply Forall_map in Hx1. exact Hx1. }
    assert (HG : Forall (fun a : sample => 0 < power eps a) (combine x (noisy ws x s))).
    { rewrite <- (combine_fst x (noisy ws x s)) in Hq1 by congruence. exact (proj1 (Forall_map fst (fun v => 0 < eps + normsq v) _) Hq1). }
    exists (lrun (o_mu o) (o_w o) (map (unit eps) (combine x (noisy ws x s)))). split; [apply lrun_length; [exact Lw|apply unit_lengths; exact HF]|]. intros a.
    assert (HF' : Forall (fun a : sample => length (fst a) = n) (combine x (noisy ws x s) ++ [(z, Rdot ws z + a)])) by (apply Forall_app; split; [exact HF|repeat constructor; exact Hz]).
    assert (HG' : Forall (fun a : sample => 0 < power eps a) (combine x (noisy ws x s) ++ [(z, Rdot ws z + a)])) by (apply Forall_app; split; [exact HG|repeat constructor; exact Hqz]).
    destruct (nlms_run solve n o eps _ Hr Ex HF' HG') as (E & _). unfold weights_after in E. rewrite !map_app in E. cbn [map] in E. rewrite lrun_last, combine_fst, combine_snd in E by congruence.
    unfold trained. rewrite noisy_app by exact Hs.  cbn [map fst snd] in E. etransitivity; [exact E|].
    rewrite unit_step by exact Hqz. reflexivity.
  Qed.

  (** so, with noise of non-zero variance and inputs bounded away from zero, the mean squared deviation of LMS and NLMS, and of RLS with
      forgetting, does not tend to 0 *)
  Lemma not_cv (u : nat -> R) c : 0 < c -> (forall N, c <= u (S N)) -> ~ Un_cv u 0.
  Proof.
    intros Hc H Hu. destruct (Hu c Hc) as (N & HN). specialize (HN (S N) ltac:(lia)). unfold R_dist in HN. rewrite Rminus_0_r in HN.
    pose proof (Rle_abs (u (S N))). specialize (H N). lra.
  Qed.
  Lemma first_last {A} N (f : nat -> A) : first (S N) f = first N f ++ [f N].
  Proof. unfold first. rewrite seq_S, map_app. reflexivity. Qed.
  Lemma first_Forall {A} (Q : A -> Prop) N (f : nat -> A) : (forall k, Q (f k)) -> Forall Q (first N f).
  Proof. intros H. unfold first. apply Forall_forall. intros r Hin. apply in_map_iff in Hin as (k & <- & _). apply H. Qed.

  Theorem C101_others_never : forall n (o : obj) ws (xx : nat -> rvec) P var r X,
    length ws = n -> (forall k, length (xx k) = n) -> noise_law P var -> 0 < var -> 0 < r -> (forall k, r <= normsq (xx k) <= X) ->
    (reachable n o -> o_ext o = XLMS -> o_mu o <> 0 -> ~ Un_cv (fun N => deviation P o ws (first N xx)) 0) /\
    (forall eps, reachable n o -> o_ext o = XNLMS eps -> 0 <= eps -> o_mu o <> 0 -> ~ Un_cv (fun N => deviation P o ws (first N xx)) 0) /\
    (forall rng (kw : kwargs R) eps Q0, rng_ok rng -> sane_kw kw -> kw_n kw = Some (Z.of_nat n) -> new_filter rng KRLS kw = Ok o ->
       o_ext o = XRLS eps Q0 -> 0 < eps -> 0 < o_mu o < 1 -> ~ Un_cv (fun N => deviation P o ws (first N xx)) 0).
  Proof.
    intros n o ws xx P var r X Hws Hxx HP Hv Hr HX.
    assert (Hrows : forall N, rows_of n (first N xx)) by (intros; apply first_Forall; exact Hxx).
    assert (Hsq : forall t, t <> 0 -> 0 < t ^ 2) by (intros t Ht; pose proof (Rsqr_pos_lt t Ht) as H; unfold Rsqr in H; lra).
    assert (HX0 : 0 < X) by (destruct (HX 0%nat); lra).
    split; [|split].
    - intros Hre Ex Hmu. apply (not_cv _ (var * o_mu o ^ 2 * r)).
      + apply Rmult_lt_0_compat; [apply Rmult_lt_0_compat; auto|exact Hr].
      + intros N. pose proof (C101_LMS_floor n o ws (first N xx) (xx N) P var Hre Ex Hws) as H. rewrite <- first_last in H.
        eapply Rle_trans; [|apply (H (Hrows (S N)) HP)]. apply Rmult_le_compat_l; [left; apply Rmult_lt_0_compat; auto|apply HX].
    - intros eps Hre Ex Heps Hmu. set (g := / (eps + X)). assert (Hg : 0 < g) by (apply Rinv_0_lt_compat; lra).
      apply (not_cv _ (var * (o_mu o ^ 2 * g ^ 2) * r)).
      + apply Rmult_lt_0_compat; [|exact Hr]. apply Rmult_lt_0_compat; [exact Hv|]. apply Rmult_lt_0_compat; apply Hsq; lra.
      + intros N. pose proof (C101_NLMS_floor n o eps ws (first N xx) (xx N) P var Hre Ex Hws) as H. rewrite <- first_last in H.
        eapply Rle_trans; [|apply (H (Hrows (S N)))].
        * destruct (HX N) as (HN1 & HN2). assert (Hgi : 0 <= g <= / (eps + normsq (xx N))) by (split; [lra|apply Rinv_le_contravar; lra]).
          assert (Hi : g ^ 2 <= (/ (eps + normsq (xx N))) ^ 2) by (apply pow_incr; exact Hgi).
          apply Rmult_le_compat; [|lra| |exact HN1].
          -- apply Rmult_le_pos; [lra|]. apply Rmult_le_pos; apply pow2_ge_0.
          -- apply Rmult_le_compat_l; [lra|]. unfold Rdiv. rewrite Rpow_mult_distr. apply Rmult_le_compat_l; [apply pow2_ge_0|exact Hi].
        * apply first_Forall. intros k. destruct (HX k). lra.
        * exact HP.
    - intros rng kw eps Q0 Hrng Hkw Hn Hnew Ex Heps Hmu. set (C := eps + X / (1 - o_mu o)).
      assert (HXm : 0 <= X / (1 - o_mu o)) by (apply Rmult_le_pos; [lra|left; apply Rinv_0_lt_compat; lra]).
      assert (HC : 0 < C) by (unfold C; lra). apply (not_cv _ (var * r / C ^ 2)).
      + unfold Rdiv. apply Rmult_lt_0_compat; [apply Rmult_lt_0_compat; auto|apply Rinv_0_lt_compat, pow_lt; exact HC].
      + intros N. pose proof (C101_RLS_forgetting_floor rng kw n o eps Q0 ws (first N xx) (xx N) P var X Hrng Hkw Hn Hnew Ex Heps Hmu Hws) as H.
        rewrite <- first_last, first_length in H. eapply Rle_trans; [|apply (H (Hrows (S N)) HP)]; [|apply first_Forall; intros k; apply HX].
        assert (Hp : 0 < o_mu o ^ S N <= 1).
        { split; [apply pow_lt; lra|]. rewrite <- (pow1 (S N)). apply pow_incr. lra. }
        assert (HC' : 0 < o_mu o ^ S N * eps + X / (1 - o_mu o) <= C).
        { split; [pose proof (Rmult_lt_0_compat _ _ (proj1 Hp) Heps); lra|]. unfold C. apply Rplus_le_compat_r. rewrite <- (Rmult_1_l eps) at 2. apply Rmult_le_compat_r; lra. }
        unfold Rdiv at 1 2. apply Rmult_le_compat.
        * apply Rmult_le_pos; lra.
        * left. apply Rinv_0_lt_compat, pow_lt. exact HC.
        * apply Rmult_le_compat_l; [lra|apply HX].
        * apply Rinv_le_contravar; [apply pow_lt; lra|]. apply pow_incr. lra.
  Qed.

  (** *** The hypotheses can be met: a fair coin, inputs that alternate, an RLS filter with mu = 1, one with mu = 1/2 and an LMS filter *)
  Definition coin : law R := [(1 / 2, 1); (1 / 2, -1)].
  Example C101_hypotheses :
    noise_law coin 1 /\ (forall k, length (alternating k) = 2%nat) /\ exciting 2 2 1 alternating /\ (forall k, 1 <= normsq (alternating k) <= 1) /\
    (forall mu, mu = 1 \/ mu = 1 / 2 -> exists (o : obj) Q0, sane_kw (kw55 mu) /\ kw_n (kw55 mu) = Some (Z.of_nat 2) /\ new_filter rngR KRLS (kw55 mu) = Ok o /\
       o_mu o = mu /\ o_ext o = XRLS 1 Q0 /\ rng_ok rngR) /\
    (exists o : obj, reachable 2 o /\ o_ext o = XLMS /\ o_mu o <> 0).
  Proof.
    split; [|split; [|split; [exact alternating_exciting|split; [|split]]]].
    - split; [split; [repeat constructor; simpl; lra|unfold coin; simpl; lra]|]. unfold mean, coin. simpl. split; lra.
    - intros k. unfold alternating. destruct (Nat.even k); reflexivity.
    - intros k. unfold alternating, normsq. destruct (Nat.even k); simpl; lra.
    - intros mu Hmu.
      assert (Hnew : exists o : obj, new_filter rngR KRLS (kw55 mu) = Ok o /\ o_mu o = mu /\ exists R0, o_ext o = XRLS 1 R0).
      { destruct (new_filter rngR KRLS (kw55 mu)) as [o|] eqn:Eo; revert Eo; unfold new_filter; cbn; rewrite Reqb_1_0; [|discriminate].
        intros [= <-]. eexists. split; [reflexivity|]. split; [reflexivity|]. eexists. reflexivity. }
      destruct Hnew as (o & Ho & Hm & Q0 & HE). exists o, Q0. split; [split; intros ? Hs; discriminate Hs|]. split; [reflexivity|]. split; [exact Ho|].
      split; [exact Hm|]. split; [exact HE|apply rngR_ok].
    - exists (fresh2 (1 / 2) XLMS). split; [apply (fresh2_reachable solve (1 / 2) None None None KLMS); reflexivity|]. split; [reflexivity|simpl; lra].
  Qed.
End S.
