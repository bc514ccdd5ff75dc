(** C120: no algorithm can guarantee more than LMS does (exact real arithmetic). *)
From Coq Require Import Reals Lra Psatz.
From Verif Require Import Py Num Numpy Filters Registry Spec StructProofs RunProofs Reach RMat RVec RFilter PropsStability PropsNoise PropsAlgebra PropsConverge PropsRLS PropsRLSRate PropsRLSCost PropsRLSTrack PropsForget.
Open Scope R_scope.

(** ** Sums *)
Lemma total_plus N (f g : nat -> R) : total N (fun k => f k + g k) = total N f + total N g.
Proof. induction N as [|N IH]; [unfold total; simpl; ring|rewrite !total_S, IH; ring]. Qed.
Lemma total_ext N (f g : nat -> R) : (forall k, (k < N)%nat -> f k = g k) -> total N f = total N g.
Proof. induction N as [|N IH]; intros H; [reflexivity|]. rewrite !total_S, IH by (intros; apply H; lia). rewrite (H N) by lia. reflexivity. Qed.
Lemma total_split a b (f : nat -> R) : total (a + b) f = total a f + total b (fun k => f (a + k)%nat).
Proof.
  induction b as [|b IH]; [rewrite Nat.add_0_r; change (total 0 _) with 0; ring|]. rewrite Nat.add_succ_r, !total_S, IH. ring.
Qed.

(** endlessly exciting inputs: the energy in any direction grows without bound *)
Lemma excite_total n m alpha xx u K : exciting n m alpha xx -> length u = n -> INR K * (alpha * normsq u) <= total (m * K) (fun k => Rdot u (xx k) ^ 2).
Proof.
  intros (Ha & He) Lu. induction K as [|K IH].
  - rewrite Nat.mul_0_r. change (total 0 _) with 0. change (INR 0) with 0. lra.
  - rewrite Nat.mul_succ_r, total_split, S_INR. specialize (He (m * K)%nat u Lu). lra.
Qed.

(** the first axis *)
Definition axis (n : nat) : rvec := 1 :: repeat 0 (n - 1).
Lemma axis_length n : (1 <= n)%nat -> length (axis n) = n.
Proof. intros H. unfold axis. cbn [length]. rewrite repeat_length. lia. Qed.
Lemma Rdot_zeros k v : Rdot (repeat 0 k) v = 0.
Proof. revert v. induction k as [|k IH]; intros [|a v]; cbn [repeat Rdot]; try reflexivity. rewrite IH. ring. Qed.
Lemma axis_normsq n : normsq (axis n) = 1.
Proof. unfold normsq, axis. cbn [Rdot]. rewrite Rdot_zeros. ring. Qed.

(** ** The argument: targets that the initial weights explain do not tell w0 + u from w0 - u *)
Section Two.
  Variables (n N : nat) (xx : nat -> rvec) (w0 u : rvec) (c : nat -> R).
  Hypothesis Hx : forall k, (k < N)%nat -> length (xx k) = n.
  Hypothesis Lw : length w0 = n.
  Hypothesis Lu : length u = n.
  Hypothesis Hc : forall k, 0 <= c k.
  Let x := first N xx.
  Let d := first N (fun k => Rdot w0 (xx k)).
  Let wa := vadd w0 u.
  Let wb := vadd w0 (vsc (-1) u).
  Lemma two_noise_a : total N (fun k => c k * noise wa x d k ^ 2) = total N (fun k => c k * Rdot u (xx k) ^ 2).
  Proof.
    apply total_ext. intros k Hk. unfold noise, x, d. rewrite !first_nth by exact Hk. unfold wa. rewrite Rdot_vadd_l by (rewrite ?Hx by exact Hk; congruence). ring.
  Qed.
  Lemma two_noise_b : total N (fun k => c k * noise wb x d k ^ 2) = total N (fun k => c k * Rdot u (xx k) ^ 2).
  Proof.
    apply total_ext. intros k Hk. unfold noise, x, d. rewrite !first_nth by exact Hk. unfold wb.
    rewrite Rdot_vadd_l by (rewrite ?vsc_length; rewrite ?Hx by exact Hk; congruence). rewrite Rdot_vsc_l. ring.
  Qed.
  Lemma two_dist_a : distsq w0 wa = normsq u.
  Proof.
    unfold wa, distsq. replace (vsub w0 (vadd w0 u)) with (vsc (-1) u); [rewrite normsq_vsc; ring|].
    assert (L0 : length w0 = length u) by congruence. clear - L0. revert w0 L0. induction u as [|a v IH]; intros [|b w] L; try discriminate; [reflexivity|].
    injection L as L. cbn. f_equal; [ring|apply IH; exact L].
  Qed.
  Lemma two_dist_b : distsq w0 wb = normsq u.
  Proof.
    unfold wb, distsq. replace (vsub w0 (vadd w0 (vsc (-1) u))) with u; [reflexivity|].
    assert (L0 : length w0 = length u) by congruence. clear - L0. revert w0 L0. induction u as [|a v IH]; intros [|b w] L; try discriminate; [reflexivity|].
    injection L as L. cbn. f_equal; [ring|apply IH; exact L].
  Qed.
  Lemma two_miss (y : rvec) : 2 * total N (fun k => c k * Rdot u (xx k) ^ 2) <= total N (fun k => c k * miss wa x y k ^ 2) + total N (fun k => c k * miss wb x y k ^ 2).
  Proof.
    rewrite total_scal, <- total_plus. apply total_le. intros k Hk. unfold miss, x. rewrite first_nth by exact Hk. unfold wa, wb.
    rewrite !Rdot_vadd_l by (rewrite ?vsc_length; rewrite ?Hx by exact Hk; congruence). rewrite Rdot_vsc_l.
    set (a := Rdot w0 (xx k) - nth k y 0). set (b := Rdot u (xx k)).
    replace (Rdot w0 (xx k) + b - nth k y 0) with (a + b) by (unfold a; ring). replace (Rdot w0 (xx k) + -1 * b - nth k y 0) with (a - b) by (unfold a; ring).
    replace (c k * (a + b) ^ 2 + c k * (a - b) ^ 2) with (2 * (c k * b ^ 2) + 2 * (c k * a ^ 2)) by ring.
    assert (0 <= c k * a ^ 2) by (apply Rmult_le_pos; [apply Hc|apply pow2_ge_0]). lra.
  Qed.
End Two.

Section S.
  Variable solve : list rvec -> list rvec -> option (list rvec).
  #[local] Hint Extern 0 (Num R) => exact (RNum solve) : typeclass_instances.
  Notation obj := (obj R).

  (** *** The bound for every algorithm [alg] (causal or not; from the targets to the outputs, for the given inputs): its miss
      energy, each sample counted with weight c, cannot be at most gamma (noise energy + |w0 - ws|^2 / mu) with gamma < 1 *)
  Theorem C120_nobody_guarantees_more : forall n m alpha xx w0 (c : nat -> R) cmin mu gamma, exciting n m alpha xx -> (1 <= n)%nat ->
    (forall k, length (xx k) = n) -> length w0 = n -> 0 < cmin -> (forall k, cmin <= c k) -> 0 < mu -> gamma < 1 ->
    exists N, (1 <= N)%nat /\ forall alg : rvec -> rvec, exists d ws, length d = N /\ length ws = n /\
      gamma * (total N (fun k => c k * noise ws (first N xx) d k ^ 2) + distsq w0 ws / mu) < total N (fun k => c k * miss ws (first N xx) (alg d) k ^ 2).
  Proof.
    intros n m alpha xx w0 c cmin mu gamma He Hn Hx Lw Hcm Hc Hmu Hg. pose proof He as (Ha & _).
    set (u := axis n). assert (Lu : length u = n) by (apply axis_length; exact Hn).
    assert (Pa : 0 < alpha * cmin * (1 - gamma)) by (apply Rmult_lt_0_compat; [apply Rmult_lt_0_compat; lra|lra]).
    destruct (archimed_cor1 (alpha * cmin * (1 - gamma) / (Rabs gamma / mu + 1))) as (K & HK & HK0).
    { apply Rmult_lt_0_compat; [exact Pa|]. apply Rinv_0_lt_compat. assert (0 <= Rabs gamma / mu); [|lra]. apply Rmult_le_pos; [apply Rabs_pos|left; apply Rinv_0_lt_compat; exact Hmu]. }
    assert (Hp : 0 <= Rabs gamma / mu) by (apply Rmult_le_pos; [apply Rabs_pos|left; apply Rinv_0_lt_compat; exact Hmu]).
    assert (HKp : 0 < INR K) by (apply (lt_INR 0); lia).
    assert (HK1 : Rabs gamma / mu + 1 < INR K * (alpha * cmin * (1 - gamma))).
    { apply Rmult_lt_reg_l with (/ INR K); [apply Rinv_0_lt_compat; exact HKp|]. rewrite <- Rmult_assoc, Rinv_l, Rmult_1_l by lra.
      apply Rmult_lt_reg_r with (/ (Rabs gamma / mu + 1)); [apply Rinv_0_lt_compat; lra|]. rewrite Rmult_assoc, Rinv_r, Rmult_1_r by lra. exact HK. }
    set (N := (m * K)%nat).
    set (Su := total N (fun k => c k * Rdot u (xx k) ^ 2)).
    assert (HS : INR K * (alpha * cmin) <= Su).
    { pose proof (excite_total n m alpha xx u K He Lu) as H. unfold u in H at 1. rewrite axis_normsq, Rmult_1_r in H.
      assert (cmin * (INR K * alpha) <= cmin * total N (fun k => Rdot u (xx k) ^ 2)) by (apply Rmult_le_compat_l; [lra|exact H]).
      rewrite total_scal in H0. replace (INR K * (alpha * cmin)) with (cmin * (INR K * alpha)) by ring. eapply Rle_trans; [exact H0|].
      apply total_le. intros k _. apply Rmult_le_compat_r; [apply pow2_ge_0|apply Hc]. }
    assert (HSg : gamma / mu < Su * (1 - gamma)).
    { assert (INR K * (alpha * cmin) * (1 - gamma) <= Su * (1 - gamma)) by (apply Rmult_le_compat_r; lra).
      assert (gamma / mu <= Rabs gamma / mu) by (apply Rmult_le_compat_r; [left; apply Rinv_0_lt_compat; exact Hmu|apply Rle_abs]). lra. }
    exists N. split. { unfold N. destruct m as [|m']; [|nia]. exfalso. destruct He as (_ & H0). specialize (H0 0%nat u Lu). change (total 0 _) with 0 in H0. unfold u in H0. rewrite axis_normsq in H0. lra. }
    intros alg. set (d := first N (fun k => Rdot w0 (xx k))).
    assert (Hc0 : forall k, 0 <= c k) by (intros k; specialize (Hc k); lra). assert (HxN : forall k, (k < N)%nat -> length (xx k) = n) by auto.
    pose proof (two_miss n N xx w0 u c HxN Lw Lu Hc0 (alg d)) as HM. fold Su in HM.
    set (wa := vadd w0 u) in *. set (wb := vadd w0 (vsc (-1) u)) in *.
    assert (HB : forall ws, total N (fun k => c k * noise ws (first N xx) d k ^ 2) = Su -> distsq w0 ws = normsq u ->
      Su <= total N (fun k => c k * miss ws (first N xx) (alg d) k ^ 2) ->
      gamma * (total N (fun k => c k * noise ws (first N xx) d k ^ 2) + distsq w0 ws / mu) < total N (fun k => c k * miss ws (first N xx) (alg d) k ^ 2)).
    { intros ws -> -> H. unfold u. rewrite axis_normsq. apply Rlt_le_trans with Su; [|exact H]. unfold Rdiv in *. rewrite Rmult_1_l. lra. }
    exists d.
    destruct (Rle_lt_dec Su (total N (fun k => c k * miss wa (first N xx) (alg d) k ^ 2))) as [H|H].
    - exists wa. split; [apply first_length|]. split; [apply vadd_length; congruence|]. apply HB; [apply (two_noise_a n); auto|apply (two_dist_a n); auto|exact H].
    - exists wb. split; [apply first_length|]. split; [apply vadd_length; rewrite ?vsc_length; congruence|]. apply HB; [apply (two_noise_b n); auto|apply (two_dist_b n); auto|lra].
  Qed.

  (** in particular no filter of the library, of any class, in any state *)
  Definition outputs (d : rvec) (x : list rvec) (o : obj) : rvec := match snd (run d x o) with Ok (y, _, _) => y | Err _ => [] end.
  Theorem C120_every_class : forall n m alpha xx (o : obj) mu gamma, reachable n o -> exciting n m alpha xx -> (1 <= n)%nat -> (forall k, length (xx k) = n) -> 0 < mu -> gamma < 1 ->
    exists N d ws, (1 <= N)%nat /\ length d = N /\ length ws = n /\ forall o' y e w, run d (first N xx) o = (o', Ok (y, e, w)) ->
      gamma * (total N (fun k => noise ws (first N xx) d k ^ 2) + distsq (o_w o) ws / mu) < total N (fun k => miss ws (first N xx) y k ^ 2).
  Proof.
    intros n m alpha xx o mu gamma Hr He Hn Hx Hmu Hg. pose proof (reachable_wf _ _ Hr) as (Lw & _).
    destruct (C120_nobody_guarantees_more n m alpha xx (o_w o) (fun _ => 1) 1 mu gamma He Hn Hx Lw ltac:(lra) ltac:(intros; lra) Hmu Hg) as (N & HN & H).
    destruct (H (fun d => outputs d (first N xx) o)) as (d & ws & Ld & Lws & HG). exists N, d, ws. split; [exact HN|]. split; [exact Ld|]. split; [exact Lws|].
    intros o' y e w E. unfold outputs in HG. rewrite E in HG. cbn [snd] in HG.
    rewrite (total_ext N (fun k => 1 * noise ws (first N xx) d k ^ 2) (fun k => noise ws (first N xx) d k ^ 2)) in HG by (intros; ring).
    rewrite (total_ext N (fun k => 1 * miss ws (first N xx) y k ^ 2) (fun k => miss ws (first N xx) y k ^ 2)) in HG by (intros; ring). exact HG.
  Qed.

  Lemma first_rows n N (xx : nat -> rvec) : (forall k : nat, length (xx k) = n) -> rows_of n (first N xx).
  Proof. intros Hx. apply Forall_forall. intros u Hu. unfold first in Hu. apply in_map_iff in Hu as (k & <- & _). apply Hx. Qed.
  Lemma first_ne {A} N (f : nat -> A) : (1 <= N)%nat -> first N f <> [].
  Proof. intros H C. pose proof (first_length N f) as L. rewrite C in L. cbn in L. lia. Qed.

  (** *** The guarantee of LMS is the best possible: its worst gain on endless exciting inputs is exactly one *)
  Theorem C120_LMS_optimal : forall n m alpha xx (o : obj), reachable n o -> o_ext o = XLMS -> 0 < o_mu o -> (1 <= n)%nat -> (forall k, length (xx k) = n) ->
    (forall k, o_mu o * normsq (xx k) <= 1) -> exciting n m alpha xx ->
    forall gamma, (forall N d ws o' y e w, length ws = n -> run d (first N xx) o = (o', Ok (y, e, w)) ->
      total N (fun k => miss ws (first N xx) y k ^ 2) <= gamma * (total N (fun k => noise ws (first N xx) d k ^ 2) + distsq (o_w o) ws / o_mu o)) <-> 1 <= gamma.
  Proof.
    intros n m alpha xx o Hr Ex Hmu Hn Hx Hb He gamma. split.
    - intros H. destruct (Rle_lt_dec 1 gamma) as [Hg|Hg]; [exact Hg|exfalso].
      destruct (C120_every_class n m alpha xx o (o_mu o) gamma Hr He Hn Hx Hmu Hg) as (N & d & ws & HN & Ld & Lws & HG).
      destruct (run_exists solve n o d (first N xx) Hr (first_rows n N xx Hx) ltac:(rewrite first_length; exact Ld) (first_ne N xx HN)) as (o' & y & e & w & E).
      { intros ex. unfold soft_exn. rewrite Ex. auto. }
      specialize (HG o' y e w E). specialize (H N d ws o' y e w Lws E). lra.
    - intros Hg N d ws o' y e w Lws E.
      pose proof (C53_LMS_robust solve n o o' d (first N xx) y e w ws Hr Ex (first_rows n N xx Hx) Lws E Hmu) as H. rewrite first_length in H.
      specialize (H ltac:(intros k Hk; rewrite first_nth by exact Hk; apply Hb)).
      pose proof (Rinv_0_lt_compat _ Hmu) as Hi. pose proof (normsq_nonneg (vsub (o_w o) ws)) as D1. pose proof (normsq_nonneg (vsub (o_w o') ws)) as D2. fold (distsq (o_w o) ws) in D1. fold (distsq (o_w o') ws) in D2.
      assert (0 <= distsq (o_w o') ws / o_mu o) by (apply Rmult_le_pos; lra). assert (0 <= distsq (o_w o) ws / o_mu o) by (apply Rmult_le_pos; lra).
      set (Nn := total N (fun k => noise ws (first N xx) d k ^ 2)) in *. assert (0 <= Nn) by (apply total_nonneg; intros; apply pow2_ge_0).
      assert (1 * (Nn + distsq (o_w o) ws / o_mu o) <= gamma * (Nn + distsq (o_w o) ws / o_mu o)) by (apply Rmult_le_compat_r; lra). lra.
  Qed.

  (** the same for NLMS and the normalised energies, inputs of any size up to a bound *)
  Theorem C120_NLMS_optimal : forall n m alpha xx (o : obj) eps X2, reachable n o -> o_ext o = XNLMS eps -> 0 < o_mu o <= 1 -> 0 < eps -> (1 <= n)%nat -> (forall k, length (xx k) = n) ->
    (forall k, normsq (xx k) <= X2) -> exciting n m alpha xx -> let energy N f := total N (fun k => f k ^ 2 / (eps + normsq (xx k))) in
    forall gamma, (forall N d ws o' y e w, length ws = n -> run d (first N xx) o = (o', Ok (y, e, w)) ->
      energy N (miss ws (first N xx) y) <= gamma * (energy N (noise ws (first N xx) d) + distsq (o_w o) ws / o_mu o)) <-> 1 <= gamma.
  Proof.
    intros n m alpha xx o eps X2 Hr Ex Hmu Heps Hn Hx Hb He energy gamma. assert (HP : forall k, 0 < eps + normsq (xx k)) by (intros k; pose proof (normsq_nonneg (xx k)); lra). split.
    - intros H. destruct (Rle_lt_dec 1 gamma) as [Hg|Hg]; [exact Hg|exfalso]. pose proof (reachable_wf _ _ Hr) as (Lw & _).
      assert (HX : 0 <= X2) by (eapply Rle_trans; [apply normsq_nonneg|apply (Hb 0%nat)]).
      destruct (C120_nobody_guarantees_more n m alpha xx (o_w o) (fun k => / (eps + normsq (xx k))) (/ (eps + X2)) (o_mu o) gamma He Hn Hx Lw) as (N & HN & HA); auto; try lra.
      { apply Rinv_0_lt_compat. lra. } { intros k. apply Rinv_le_contravar; [apply HP|]. specialize (Hb k). lra. }
      destruct (HA (fun d => outputs d (first N xx) o)) as (d & ws & Ld & Lws & HG).
      destruct (run_exists solve n o d (first N xx) Hr (first_rows n N xx Hx) ltac:(rewrite first_length; exact Ld) (first_ne N xx HN)) as (o' & y & e & w & E).
      { intros ex. unfold soft_exn. rewrite Ex. auto. }
      specialize (H N d ws o' y e w Lws E). unfold outputs in HG. rewrite E in HG. cbn [snd] in HG. unfold energy in H.
      rewrite (total_ext N (fun k => / (eps + normsq (xx k)) * noise ws (first N xx) d k ^ 2) (fun k => noise ws (first N xx) d k ^ 2 / (eps + normsq (xx k)))) in HG by (intros; unfold Rdiv; ring).
      rewrite (total_ext N (fun k => / (eps + normsq (xx k)) * miss ws (first N xx) y k ^ 2) (fun k => miss ws (first N xx) y k ^ 2 / (eps + normsq (xx k)))) in HG by (intros; unfold Rdiv; ring). lra.
    - intros Hg N d ws o' y e w Lws E.
      pose proof (C53_NLMS_robust solve n o o' d (first N xx) y e w ws eps Hr Ex (first_rows n N xx Hx) Lws E ltac:(lra) ltac:(lra)) as H. rewrite first_length in H.
      specialize (H ltac:(intros k Hk; rewrite first_nth by exact Hk; apply HP)).
      rewrite (total_ext N _ (fun k => miss ws (first N xx) y k ^ 2 / (eps + normsq (xx k)))) in H by (intros k Hk; rewrite first_nth by exact Hk; reflexivity).
      rewrite (total_ext N (fun k => noise ws (first N xx) d k ^ 2 / _) (fun k => noise ws (first N xx) d k ^ 2 / (eps + normsq (xx k)))) in H by (intros k Hk; rewrite first_nth by exact Hk; reflexivity).
      change (total N (fun k => miss ws (first N xx) y k ^ 2 / (eps + normsq (xx k)))) with (energy N (miss ws (first N xx) y)) in H.
      change (total N (fun k => noise ws (first N xx) d k ^ 2 / (eps + normsq (xx k)))) with (energy N (noise ws (first N xx) d)) in H.
      set (M := energy N (miss ws (first N xx) y)) in *. set (Nn := energy N (noise ws (first N xx) d)) in *.
      pose proof (normsq_nonneg (vsub (o_w o) ws)) as D1. pose proof (normsq_nonneg (vsub (o_w o') ws)) as D2. fold (distsq (o_w o) ws) in D1. fold (distsq (o_w o') ws) in D2.
      assert (HNn : 0 <= Nn) by (apply total_nonneg; intros k _; apply Rmult_le_pos; [apply pow2_ge_0|left; apply Rinv_0_lt_compat, HP]).
      pose proof (Rinv_0_lt_compat _ (proj1 Hmu)) as Hi. assert (0 <= distsq (o_w o) ws / o_mu o) by (apply Rmult_le_pos; lra).
      assert (HM : M <= Nn + distsq (o_w o) ws / o_mu o). { apply Rmult_le_reg_l with (o_mu o); [lra|]. replace (o_mu o * (Nn + distsq (o_w o) ws / o_mu o)) with (o_mu o * Nn + distsq (o_w o) ws) by (field; lra). lra. }
      assert (1 * (Nn + distsq (o_w o) ws / o_mu o) <= gamma * (Nn + distsq (o_w o) ws / o_mu o)) by (apply Rmult_le_compat_r; lra). lra.
  Qed.

  (** *** RLS (without forgetting) may do worse: its worst gain is at most (1 + sqrt (1 + X/eps))^2 ... *)
  Theorem C120_RLS_guarantee : forall rng (kw : kwargs R) n (o o' : obj) eps R0 d x y e w X ws,
    rng_ok rng -> sane_kw kw -> kw_n kw = Some (Z.of_nat n) -> new_filter rng KRLS kw = Ok o -> o_ext o = XRLS eps R0 -> 0 < eps -> o_mu o = 1 ->
    rows_of n x -> run d x o = (o', Ok (y, e, w)) -> (forall k, (k < length x)%nat -> normsq (nth k x []) <= X) -> length ws = n ->
    total (length x) (fun k => miss ws x y k ^ 2) <=
      (1 + sqrt (1 + X / eps)) ^ 2 * (total (length x) (fun k => noise ws x d k ^ 2) + eps * distsq ws (o_w o)).
  Proof.
    intros rng kw n o o' eps R0 d x y e w X ws Hrng Hkw Hn Hnew HE Heps Hmu Hx Hrun HX Lws.
    pose proof (C73_total_error solve rng kw n o o' eps R0 d x y e w X ws Hrng Hkw Hn Hnew HE Heps Hmu Hx Hrun HX Lws) as H.
    fold (distsq ws (o_w o)) in H. pose proof (normsq_nonneg (vsub ws (o_w o))) as HD. fold (distsq ws (o_w o)) in HD.
    assert (Hr : wf n o) by (apply reachable_wf; eapply reach_new; eauto).
    destruct (run_lengths solve n o o' d x y e w Hr Hx Hrun) as (_ & Hne & _).
    assert (X0 : 0 <= X). { destruct x as [|x0 x']; [congruence|]. eapply Rle_trans; [apply normsq_nonneg|apply (HX 0%nat); cbn; lia]. }
    assert (HXe : 0 <= X / eps) by (apply Rmult_le_pos; [exact X0|left; apply Rinv_0_lt_compat; exact Heps]).
    set (s := sqrt (1 + X / eps)). assert (Hs2 : s * s = 1 + X / eps) by (apply sqrt_sqrt; lra).
    assert (Hs : 0 < s) by (apply sqrt_lt_R0; lra).
    set (N := length x) in *. set (V := total N (fun k => noise ws x d k ^ 2)). set (C := V + eps * distsq ws (o_w o)).
    assert (HV : 0 <= V) by (apply total_nonneg; intros; apply pow2_ge_0).
    assert (HC : V <= C) by (assert (0 <= eps * distsq ws (o_w o)) by (apply Rmult_le_pos; lra); unfold C; lra).
    assert (HEe : total N (fun k => nth k e 0 ^ 2) <= s * s * C). { rewrite Hs2, total_sumn. unfold C, V. rewrite total_sumn. exact H. }
    assert (HP : total N (fun k => miss ws x y k ^ 2) <= (1 + / s) * total N (fun k => nth k e 0 ^ 2) + (1 + s) * V).
    { unfold V. rewrite !total_scal, <- total_plus. apply total_le. intros k Hk.
      destruct (run_step solve n o o' d x y e w k Hr Hx Hrun Hk) as (s1 & s1' & _ & _ & _ & _ & _ & _ & _ & _ & He & _).
      unfold miss, noise. rewrite He. set (a := nth k d 0 - nth k y 0). set (b := nth k d 0 - Rdot ws (nth k x [])).
      replace (Rdot ws (nth k x []) - nth k y 0) with (a - b) by (unfold a, b; ring).
      assert (0 <= / s * (a + s * b) ^ 2) by (apply Rmult_le_pos; [left; apply Rinv_0_lt_compat; exact Hs|apply pow2_ge_0]).
      replace (/ s * (a + s * b) ^ 2) with (/ s * a ^ 2 + 2 * a * b + s * b ^ 2) in H0 by (field; lra). lra. }
    eapply Rle_trans; [exact HP|].
    assert (P1 : 0 < 1 + / s) by (pose proof (Rinv_0_lt_compat _ Hs); lra).
    assert ((1 + / s) * total N (fun k => nth k e 0 ^ 2) <= (1 + / s) * (s * s * C)) by (apply Rmult_le_compat_l; lra).
    assert ((1 + s) * V <= (1 + s) * C) by (apply Rmult_le_compat_l; lra).
    replace ((1 + s) ^ 2 * C) with ((1 + / s) * (s * s * C) + (1 + s) * C) by (field; lra). lra.
  Qed.

  (** ... and four is not too much: the targets 1, 1/sqrt 2, 1/sqrt 3, ... for constant input and a filter that starts at the
      true weight 0 *)
  Lemma unbounded_nat r : exists N, r < INR N.
  Proof.
    destruct (archimed r) as (H & _). destruct (Z_lt_le_dec (up r) 0) as [C|C].
    - exists 0%nat. change (INR 0) with (IZR 0). apply IZR_lt in C. lra.
    - exists (Z.to_nat (up r)). rewrite INR_IZR_INZ, Z2Nat.id by exact C. exact H.
  Qed.
  Lemma sq_pos k : 1 <= sqrt (INR k + 1).
  Proof. apply Rle_trans with (sqrt 1); [rewrite sqrt_1; lra|]. apply sqrt_le_1_alt. pose proof (pos_INR k). lra. Qed.
  Lemma sq_sq k : sqrt (INR k + 1) * sqrt (INR k + 1) = INR k + 1.
  Proof. apply sqrt_sqrt. pose proof (pos_INR k). lra. Qed.
  Lemma sum_isqrt k : 2 * (sqrt (INR k + 1) - 1) <= sumn k (fun i => / sqrt (INR i + 1)).
  Proof.
    induction k as [|k IH]; [cbn [sumn]; change (INR 0) with 0; rewrite Rplus_0_l, sqrt_1; lra|]. cbn [sumn].
    enough (2 * (sqrt (INR (S k) + 1) - sqrt (INR k + 1)) <= / sqrt (INR k + 1)) by lra.
    pose proof (sq_pos k) as P. pose proof (sq_sq k) as Q. pose proof (sq_sq (S k)) as Q'. rewrite S_INR in Q' at 3. set (a := sqrt (INR k + 1)) in *. set (b := sqrt (INR (S k) + 1)) in *.
    apply Rmult_le_reg_l with a; [lra|]. rewrite Rinv_r by lra. assert (0 <= (b - a) * (b - a)) by apply Rle_0_sqr. lra.
  Qed.
  Lemma sum_isqrt3 k : total (S k) (fun i => / sqrt (INR i + 1) ^ 3) <= 3 - 2 / sqrt (INR k + 1).
  Proof.
    induction k as [|k IH]; [unfold total; cbn; rewrite Rplus_0_l, sqrt_1; lra|]. rewrite total_S.
    enough (/ sqrt (INR (S k) + 1) ^ 3 <= 2 / sqrt (INR k + 1) - 2 / sqrt (INR (S k) + 1)) by lra.
    pose proof (sq_pos k) as P. pose proof (sq_pos (S k)) as P'. pose proof (sq_sq k) as Q. pose proof (sq_sq (S k)) as Q'. rewrite S_INR in Q' at 3. set (a := sqrt (INR k + 1)) in *. set (b := sqrt (INR (S k) + 1)) in *.
    assert (Hb3 : 0 < b ^ 3) by (apply pow_lt; lra). apply Rmult_le_reg_r with (b ^ 3 * a); [apply Rmult_lt_0_compat; lra|].
    replace (/ b ^ 3 * (b ^ 3 * a)) with a by (field; lra). replace ((2 / a - 2 / b) * (b ^ 3 * a)) with (2 * (b - a) * (b * b)) by (field; lra).
    apply Rmult_le_reg_r with (b + a); [lra|]. replace (2 * (b - a) * (b * b) * (b + a)) with (2 * (b * b - a * a) * (b * b)) by ring.
    replace (b * b - a * a) with 1 by lra. assert (0 <= (b - a) * (b - a)) by apply Rle_0_sqr. assert (0 <= (b - a) * (b - a) + a * a) by (apply Rplus_le_le_0_compat; [exact H|apply Rle_0_sqr]). lra.
  Qed.
  Lemma sum_inv N : ln (INR N + 1) <= total N (fun i => / (INR i + 1)).
  Proof.
    induction N as [|N IH]; [unfold total; cbn; rewrite Rplus_0_l, ln_1; lra|]. rewrite total_S, S_INR. pose proof (pos_INR N) as P.
    enough (ln (INR N + 1 + 1) <= ln (INR N + 1) + / (INR N + 1)) by lra.
    assert (Hi : 0 < / (INR N + 1)) by (apply Rinv_0_lt_compat; lra).
    replace (INR N + 1 + 1) with ((INR N + 1) * (1 + / (INR N + 1))) by (field; lra). rewrite ln_mult by lra. apply Rplus_le_compat_l.
    rewrite <- (ln_exp (/ (INR N + 1))) at 2. left. apply ln_increasing; [lra|]. apply exp_ineq1. lra.
  Qed.
  Theorem C120_RLS_gain_four : forall eps gamma, 0 < eps -> gamma < 4 -> exists N d, (1 <= N)%nat /\ length d = N /\
    forall rng (kw : kwargs R) (o o' : obj) R0 y e w, rng_ok rng -> sane_kw kw -> kw_n kw = Some (Z.of_nat 1) -> new_filter rng KRLS kw = Ok o -> o_ext o = XRLS eps R0 -> o_mu o = 1 -> o_w o = [0] ->
      run d (repeat [1] N) o = (o', Ok (y, e, w)) ->
      gamma * total N (fun k => noise [0] (repeat [1] N) d k ^ 2) < total N (fun k => miss [0] (repeat [1] N) y k ^ 2).
  Proof.
    intros eps gamma Heps Hg. set (G := Rmax eps 1). assert (HG1 : 1 <= G) by apply Rmax_r. assert (HGe : eps <= G) by apply Rmax_l.
    set (B := 24 * G / (4 - gamma)). destruct (unbounded_nat (exp B)) as (N & HN).
    set (H := total N (fun i => / (INR i + 1))).
    assert (HB : 24 * G < (4 - gamma) * H).
    { assert (B < H). { eapply Rlt_le_trans; [|apply sum_inv]. rewrite <- (ln_exp B) at 1. apply ln_increasing; [apply exp_pos|lra]. }
      assert ((4 - gamma) * B < (4 - gamma) * H) by (apply Rmult_lt_compat_l; lra). unfold B in H1. replace ((4 - gamma) * (24 * G / (4 - gamma))) with (24 * G) in H1 by (field; lra). exact H1. }
    set (d := first N (fun i => / sqrt (INR i + 1))). exists N, d.
    split. { destruct N as [|N']; [|lia]. exfalso. change (INR 0) with 0 in HN. pose proof (exp_pos B). lra. }
    split; [apply first_length|]. intros rng kw o o' R0 y e w Hrng Hkw Hn Hnew HE Hmu Hw Hrun.
    assert (HX : forall i, (i < N)%nat -> nth i (repeat [1] N) [] = [1]) by (intros i Hi; apply (repeat_spec N), nth_In; rewrite repeat_length; exact Hi).
    assert (Hxr : rows_of 1 (repeat [1] N)) by (apply Forall_forall; intros u Hu; apply repeat_spec in Hu; subst u; reflexivity).
    assert (HR : rls_run solve 1 eps o o' d (repeat [1] N) e w) by (exists rng, kw, R0, y; rewrite Hmu; repeat split; auto; try lra; apply Hkw).
    assert (Hr : wf 1 o) by (apply reachable_wf; eapply reach_new; eauto).
    assert (Noise : total N (fun k => noise [0] (repeat [1] N) d k ^ 2) = H).
    { apply total_ext. intros k Hk. unfold noise. rewrite HX by exact Hk. unfold d. rewrite first_nth by exact Hk. cbn [Rdot]. pose proof (sq_pos k) as P. pose proof (sq_sq k) as Q. set (a := sqrt (INR k + 1)) in *. rewrite <- Q. field. lra. }
    assert (Miss : total N (fun i => 4 * / (INR i + 1) + - (8 * G) * / sqrt (INR i + 1) ^ 3) <= total N (fun k => miss [0] (repeat [1] N) y k ^ 2)).
    { apply total_le. intros k Hk.
      destruct (run_lengths solve 1 o o' d (repeat [1] N) y e w Hr Hxr Hrun) as (_ & _ & Ly & _).
      assert (Hy : nth k y 0 = Rdot (wrow w (o_w o') k) [1]).
      { destruct (run_step solve 1 o o' d (repeat [1] N) y e w k Hr Hxr Hrun ltac:(rewrite repeat_length; exact Hk)) as (s1 & s1' & Hws & (_ & _ & Hf) & _ & _ & _ & Hs1 & _ & Hy & Lxk).
        rewrite Hy, <- Hs1, HX by exact Hk. apply (pred_out_R solve 1); [exact Hws|reflexivity|]. rewrite HE in Hf. unfold is_OCNLMS. destruct (o_ext s1); try discriminate Hf; reflexivity. }
      destruct (normal solve 1 eps o o' d (repeat [1] N) e w k [1] HR ltac:(rewrite repeat_length; lia) eq_refl) as (Lw & _ & _ & HNq). rewrite Hmu, Hw in HNq.
      unfold miss. rewrite HX by exact Hk. rewrite Hy. destruct (wrow w (o_w o') k) as [|wk [|]]; try discriminate Lw.
      rewrite (sumn_ext k _ (fun i => / sqrt (INR i + 1) - wk)) in HNq.
      2: { intros i Hi. rewrite pow1, HX by lia. unfold d. rewrite first_nth by lia. cbn [Rdot]. ring. }
      rewrite sumn_minus, sumn_same, pow1 in HNq. cbn [vsub map2 Rdot] in HNq. cbn [Rdot].
      pose proof (sum_isqrt k) as HS. set (Sk := sumn k _) in *. pose proof (sq_pos k) as P. pose proof (sq_sq k) as Q. set (a := sqrt (INR k + 1)) in *. rewrite <- Q.
      assert (W1 : 2 * (a - 1) <= wk * (a * a + (G - 1))).
      { assert (HW : wk * (eps + INR k) = Sk) by lra. pose proof (pos_INR k) as Pk.
        assert (0 <= wk). { apply Rmult_le_reg_r with (eps + INR k); [lra|]. rewrite HW. lra. }
        assert (wk * (eps + INR k) <= wk * (a * a + (G - 1))) by (apply Rmult_le_compat_l; lra). lra. }
      assert (PA : 0 < a * a + (G - 1)) by (assert (0 < a * a) by (apply Rmult_lt_0_compat; lra); lra).
      assert (W2 : 2 / a - 2 * G / (a * a) <= wk).
      { apply Rmult_le_reg_r with (a * a + (G - 1)); [exact PA|]. eapply Rle_trans; [|exact W1].
        apply Rmult_le_reg_r with (a * a); [apply Rmult_lt_0_compat; lra|].
        replace ((2 / a - 2 * G / (a * a)) * (a * a + (G - 1)) * (a * a)) with ((2 * a - 2 * G) * (a * a + (G - 1))) by (field; lra).
        assert (0 <= (G - 1) * (a * (a - 1))) by (apply Rmult_le_pos; [lra|apply Rmult_le_pos; lra]). assert (0 <= (G - 1) * G) by (apply Rmult_le_pos; lra). lra. }
      assert (PI : 0 < / a) by (apply Rinv_0_lt_compat; lra).
      assert (W3 : 0 <= (wk - 2 / a) ^ 2) by apply pow2_ge_0.
      assert (W4 : 4 / a * (2 / a - 2 * G / (a * a)) <= 4 / a * wk) by (apply Rmult_le_compat_l; [unfold Rdiv; lra|exact W2]).
      replace (4 * / (a * a) + - (8 * G) * / a ^ 3) with (4 / a * (2 / a - 2 * G / (a * a)) - (2 / a) ^ 2) by (field; lra). lra. }
    rewrite Noise. eapply Rlt_le_trans; [|exact Miss]. rewrite total_plus, <- !total_scal. fold H.
    destruct N as [|N']; [unfold H in HB; change (total 0 _) with 0 in HB; lra|].
    pose proof (sum_isqrt3 N') as T3. set (T := total (S N') (fun i => / sqrt (INR i + 1) ^ 3)) in *.
    assert (T <= 3). { pose proof (sq_pos N'). assert (0 < 2 / sqrt (INR N' + 1)) by (apply Rmult_lt_0_compat; [lra|apply Rinv_0_lt_compat; lra]). lra. }
    assert (8 * G * T <= 8 * G * 3) by (apply Rmult_le_compat_l; lra). lra.
  Qed.

  (** *** Sign-sign and cubic rules guarantee nothing: two samples of the input 1, the filter starting at the true weight *)
  Lemma two_samples (o : obj) (g : R -> R) del : reachable 1 o -> (forall e v, textbook (o_ext o) (o_mu o) e v <> None) -> (forall e, textbook (o_ext o) (o_mu o) e [1] = Some [g e]) -> (forall ex, ~ soft_exn o ex) ->
    let d := [nth 0 (o_w o) 0 + del; nth 0 (o_w o) 0] in let x := [[1]; [1]] in
    exists o' y e w, run d x o = (o', Ok (y, e, w)) /\ total 2 (fun k => noise (o_w o) x d k ^ 2) = del ^ 2 /\ total 2 (fun k => miss (o_w o) x y k ^ 2) = g del ^ 2.
  Proof.
    intros Hr Ht Hg Hs d x. pose proof (reachable_wf _ _ Hr) as Hwf. pose proof (proj1 Hwf) as Lw. assert (Hx : rows_of 1 x) by (repeat constructor).
    destruct (run_exists solve 1 o d x Hr Hx eq_refl ltac:(discriminate) Hs) as (o' & y & e & w & E). exists o', y, e, w. split; [exact E|].
    destruct (run_textbook solve 1 o o' d x y e w 0 Hwf Hx Ht E ltac:(cbn; lia)) as (dw & Htb & Hrow & Hy0 & He0 & _).
    destruct (run_textbook solve 1 o o' d x y e w 1 Hwf Hx Ht E ltac:(cbn; lia)) as (_ & _ & _ & Hy1 & _).
    rewrite (first_row solve 1 o o' d x y e w Hwf Hx E) in Hrow, Hy0. rewrite Hrow in Hy1. change (nth 0 x []) with [1] in *. change (nth 1 x []) with [1] in *.
    destruct (o_w o) as [|w0 [|]] eqn:Ew; try discriminate Lw. cbn [nth] in d, He0. subst d. cbn [Rdot] in Hy0.
    assert (He : nth 0 e 0 = del) by (rewrite He0, Hy0; cbn [nth]; ring). rewrite He, Hg in Htb. injection Htb as <-. cbn [vadd map2 Rdot] in Hy1.
    unfold total, noise, miss. cbn [seq map Rsum]. change (nth 0 x []) with [1]. change (nth 1 x []) with [1]. rewrite Hy0, Hy1. cbn [nth Rdot]. split; ring.
  Qed.
  Theorem C120_no_guarantee : forall (o : obj), reachable 1 o -> o_mu o <> 0 ->
    (o_ext o = XSSLMS \/ (exists eps, 0 < eps /\ o_ext o = XNSSLMS eps) \/ o_ext o = XLMF \/ (exists eps, 0 < eps /\ o_ext o = XNLMF eps)) ->
    forall gamma, exists d o' y e w, run d [[1]; [1]] o = (o', Ok (y, e, w)) /\
      gamma * (total 2 (fun k => noise (o_w o) [[1]; [1]] d k ^ 2) + distsq (o_w o) (o_w o) / Rabs (o_mu o)) < total 2 (fun k => miss (o_w o) [[1]; [1]] y k ^ 2).
  Proof.
    intros o Hr Hmu Hk gamma.
    assert (D0 : distsq (o_w o) (o_w o) = 0). { generalize (o_w o). induction l as [|a l IH]; [reflexivity|]. unfold distsq, normsq in *. cbn [vsub map2 Rdot]. change (map2 Rminus l l) with (vsub l l). rewrite IH. ring. }
    rewrite D0. assert (Hgoal : forall g del, (forall e v, textbook (o_ext o) (o_mu o) e v <> None) -> (forall e, textbook (o_ext o) (o_mu o) e [1] = Some [g e]) -> (forall ex, ~ soft_exn o ex) ->
      gamma * del ^ 2 < g del ^ 2 -> exists d o' y e w, run d [[1]; [1]] o = (o', Ok (y, e, w)) /\
      gamma * (total 2 (fun k => noise (o_w o) [[1]; [1]] d k ^ 2) + 0 / Rabs (o_mu o)) < total 2 (fun k => miss (o_w o) [[1]; [1]] y k ^ 2)).
    { intros g del H1 H2 H3 H4. destruct (two_samples o g del Hr H1 H2 H3) as (o' & y & e & w & E & En & Em). do 5 eexists. split; [exact E|]. rewrite En, Em. unfold Rdiv. rewrite Rmult_0_l, Rplus_0_r. exact H4. }
    pose proof (Rle_abs gamma) as Ag. pose proof (Rabs_pos gamma) as Ap.
    assert (Sgn : forall c, c <> 0 -> exists del, 0 < del /\ gamma * del ^ 2 < c ^ 2).
    { intros c Hc. assert (C2 : 0 < c ^ 2) by (pose proof (pow2_ge_0 c); pose proof (pow_nonzero c 2 Hc); lra). pose proof (Rabs_pos_lt c Hc) as Pc. exists (Rabs c / (1 + Rabs gamma)).
      assert (Hi : 0 < / (1 + Rabs gamma)) by (apply Rinv_0_lt_compat; lra). split; [apply Rmult_lt_0_compat; lra|].
      replace ((Rabs c / (1 + Rabs gamma)) ^ 2) with (c ^ 2 * (/ (1 + Rabs gamma)) ^ 2) by (unfold Rdiv; rewrite Rpow_mult_distr, pow2_abs; reflexivity).
      set (i := / (1 + Rabs gamma)) in *. assert (I1 : i * (1 + Rabs gamma) = 1) by (apply Rinv_l; lra). assert (I2 : i <= 1) by (assert (0 <= i * Rabs gamma) by (apply Rmult_le_pos; lra); lra).
      assert (i ^ 2 <= i * 1) by (replace (i ^ 2) with (i * i) by ring; apply Rmult_le_compat_l; lra). pose proof (pow2_ge_0 i).
      assert (gamma * i ^ 2 <= Rabs gamma * i ^ 2) by (apply Rmult_le_compat_r; lra). assert (Rabs gamma * i ^ 2 <= Rabs gamma * (i * 1)) by (apply Rmult_le_compat_l; lra).
      assert (gamma * i ^ 2 < 1) by lra. replace (gamma * (c ^ 2 * i ^ 2)) with (c ^ 2 * (gamma * i ^ 2)) by ring. rewrite <- (Rmult_1_r (c ^ 2)) at 2. apply Rmult_lt_compat_l; lra. }
    assert (Cub : forall c, c <> 0 -> exists del, gamma * del ^ 2 < (c * del ^ 3) ^ 2).
    { intros c Hc. assert (C2 : 0 < c ^ 2) by (pose proof (pow2_ge_0 c); pose proof (pow_nonzero c 2 Hc); lra). set (D := 1 + (1 + Rabs gamma) / c ^ 2). assert (Hq : 0 < (1 + Rabs gamma) / c ^ 2) by (apply Rmult_lt_0_compat; [lra|apply Rinv_0_lt_compat; exact C2]).
      exists D. assert (D1 : 1 <= D) by (unfold D; lra). assert (D4 : D <= D ^ 4). { assert (1 <= D ^ 3) by (apply pow_R1_Rle; exact D1). replace (D ^ 4) with (D * D ^ 3) by ring. assert (D * 1 <= D * D ^ 3) by (apply Rmult_le_compat_l; lra). lra. }
      assert (P2 : 0 < D ^ 2) by (apply pow_lt; lra). replace ((c * D ^ 3) ^ 2) with ((c ^ 2 * D ^ 4) * D ^ 2) by ring. apply Rmult_lt_compat_r; [exact P2|].
      assert (c ^ 2 * D <= c ^ 2 * D ^ 4) by (apply Rmult_le_compat_l; lra). assert (c ^ 2 * D = c ^ 2 + (1 + Rabs gamma)) by (unfold D; field; exact Hc). lra. }
    assert (Pos : forall eps, 0 < eps -> o_mu o / (eps + 1) <> 0). { intros eps He. apply Rmult_integral_contrapositive_currified; [exact Hmu|]. apply Rinv_neq_0_compat. lra. }
    assert (RsP : forall a, 0 < a -> Rsgn a = 1) by (intros a Ha; unfold Rsgn; destruct (Rlt_dec a 0); [lra|destruct (Rlt_dec 0 a); [reflexivity|lra]]).
    assert (Rs1 : Rsgn 1 = 1) by (apply RsP; lra).
    assert (NQ : normsq [1] = 1) by (unfold normsq; cbn; ring).
    destruct Hk as [Ex | [(eps & He & Ex) | [Ex | (eps & He & Ex)]]].
    - destruct (Sgn (o_mu o) Hmu) as (del & Hd & H). apply (Hgoal (fun e => o_mu o * Rsgn e) del); rewrite ?Ex; [intros; discriminate|intros e; cbn [textbook map]; rewrite Rs1; do 3 f_equal; ring|intros ex; unfold soft_exn; rewrite Ex; auto|].
      rewrite RsP, Rmult_1_r by exact Hd. exact H.
    - destruct (Sgn _ (Pos eps He)) as (del & Hd & H). apply (Hgoal (fun e => o_mu o / (eps + 1) * Rsgn e) del); rewrite ?Ex; [intros; discriminate|intros e; cbn [textbook map]; rewrite Rs1, NQ; do 3 f_equal; ring|intros ex; unfold soft_exn; rewrite Ex; auto|].
      rewrite RsP, Rmult_1_r by exact Hd. exact H.
    - destruct (Cub (o_mu o) Hmu) as (del & H). apply (Hgoal (fun e => o_mu o * e ^ 3) del); rewrite ?Ex; [intros; discriminate|intros e; cbn [textbook vsc map]; rewrite Rmult_1_r; reflexivity|intros ex; unfold soft_exn; rewrite Ex; auto|exact H].
    - destruct (Cub _ (Pos eps He)) as (del & H). apply (Hgoal (fun e => o_mu o / (eps + 1) * e ^ 3) del); rewrite ?Ex; [intros; discriminate|intros e; cbn [textbook vsc map]; rewrite Rmult_1_r, NQ; reflexivity|intros ex; unfold soft_exn; rewrite Ex; auto|exact H].
  Qed.

  (** *** hypotheses *)
  Example C120_hypotheses : exciting 2 2 1 alternating /\ (forall k, length (alternating k) = 2%nat) /\ (forall k, normsq (alternating k) = 1) /\
    reachable 2 (fresh2 1 XLMS) /\ reachable 2 (fresh2 1 (XNLMS 1)) /\ reachable 1 (mkObj [0] 1 (1 / 2) None XSSLMS) /\ reachable 1 (mkObj [0] 1 (1 / 2) None XLMF) /\
    (exists (o : obj) R0, new_filter rngR KRLS (kwt 1) = Ok o /\ o_ext o = XRLS 1 R0 /\ o_mu o = 1 /\ o_w o = [0] /\
      forall N (d : rvec), (1 <= N)%nat -> length d = N -> exists o' y e w, run d (repeat [1] N) o = (o', Ok (y, e, w))).
  Proof.
    split; [apply alternating_exciting|]. split; [intros k; unfold alternating; destruct (Nat.even k); reflexivity|].
    split; [intros k; unfold alternating, normsq; destruct (Nat.even k); cbn; ring|].
    split; [apply (fresh2_reachable solve 1 None None None KLMS); reflexivity|]. split; [apply (fresh2_reachable solve 1 (Some 1) None None KNLMS); reflexivity|].
    split. { apply (reach_new 1 rngR KSSLMS (mkKw (Some 1%Z) (Some (1 / 2)) (Some (WVec [0])) None None None None None None None None false)); [apply rngR_ok|split; discriminate|reflexivity|reflexivity]. }
    split. { apply (reach_new 1 rngR KLMF (mkKw (Some 1%Z) (Some (1 / 2)) (Some (WVec [0])) None None None None None None None None false)); [apply rngR_ok|split; discriminate|reflexivity|reflexivity]. }
    destruct (new_t solve 1 ltac:(lra)) as (o & R0 & E & Em & Ew & Ex). exists o, R0. split; [exact E|]. split; [exact Ex|]. split; [exact Em|]. split; [exact Ew|].
    intros N d HN Ld.
    assert (Hr : reachable 1 o) by (apply (reach_new 1 rngR KRLS (kwt 1)); [apply rngR_ok|split; discriminate|reflexivity|exact E]).
    apply (run_exists solve 1 o d (repeat [1] N) Hr).
    - apply Forall_forall; intros u Hu; apply repeat_spec in Hu; subst u; reflexivity.
    - rewrite repeat_length. exact Ld.
    - intros C. apply (f_equal (@length _)) in C. rewrite repeat_length in C. cbn in C. lia.
    - intros ex. unfold soft_exn. rewrite Ex, Em. intros (_ & He). cbn in He. unfold Reqb in He. destruct (Req_EM_T 1 0); [lra|discriminate].
  Qed.
End S.
