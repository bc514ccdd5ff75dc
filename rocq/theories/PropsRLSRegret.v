(** C122: the regret of RLS without forgetting grows at most logarithmically with the number of samples, and no slower than
    that in general (exact real arithmetic). *)
From Coq Require Import Reals Lra Lia Psatz.
From Verif Require Import Py Num Numpy Filters Registry Spec StructProofs RunProofs Reach RVec RFilter PropsStability Steps PropsAlgebra RMat PropsRLS PropsRLSRate PropsTracking PropsRLSTrack PropsRLSCost.
Open Scope R_scope.

(** ** Determinants of positive definite matrices, by pivots *)
Definition schur (A : nat -> nat -> R) (i j : nat) : R := A (S i) (S j) - A (S i) 0%nat * A 0%nat (S j) / A 0%nat 0%nat.
Fixpoint det (n : nat) (A : nat -> nat -> R) : R := match n with O => 1 | S m => A 0%nat 0%nat * det m (schur A) end.
Definition quad (n : nat) (A : nat -> nat -> R) (z : nat -> R) : R := sumn n (fun i => sumn n (fun j => z i * A i j * z j)).
Definition pd (n : nat) (A : nat -> nat -> R) : Prop :=
  (forall i j, (i < n)%nat -> (j < n)%nat -> A i j = A j i) /\ forall z, (exists i, (i < n)%nat /\ z i <> 0) -> 0 < quad n A z.
Fixpoint prodn (n : nat) (f : nat -> R) : R := match n with O => 1 | S m => prodn m f * f m end.

Lemma det_ext n : forall A B, (forall i j, (i < n)%nat -> (j < n)%nat -> A i j = B i j) -> det n A = det n B.
Proof.
  induction n as [|n IH]; intros A B H; [reflexivity|]. cbn [det]. rewrite (H 0%nat 0%nat) by lia. f_equal. apply IH. intros i j Hi Hj.
  unfold schur. rewrite !H by lia. reflexivity.
Qed.
Lemma quad_split n A z : (forall i, (i < n)%nat -> A (S i) 0%nat = A 0%nat (S i)) ->
  quad (S n) A z = A 0%nat 0%nat * z 0%nat ^ 2 + 2 * z 0%nat * sumn n (fun j => A 0%nat (S j) * z (S j)) + sumn n (fun i => sumn n (fun j => z (S i) * A (S i) (S j) * z (S j))).
Proof.
  intros Hs. unfold quad. rewrite sumn_S_l. rewrite (sumn_S_l n (fun j => z 0%nat * A 0%nat j * z j)).
  rewrite (sumn_ext n (fun i => sumn (S n) (fun j => z (S i) * A (S i) j * z j)) (fun i => z 0%nat * (A 0%nat (S i) * z (S i)) + sumn n (fun j => z (S i) * A (S i) (S j) * z (S j)))).
  - rewrite sumn_plus, sumn_scal. rewrite (sumn_ext n (fun i => z 0%nat * A 0%nat (S i) * z (S i)) (fun i => z 0%nat * (A 0%nat (S i) * z (S i)))) by (intros; ring).
    rewrite sumn_scal. ring.
  - intros i Hi. rewrite sumn_S_l, Hs by exact Hi. ring.
Qed.
Lemma double_scal n (f g : nat -> R) : sumn n (fun i => sumn n (fun j => f i * g j)) = sumn n f * sumn n g.
Proof. rewrite <- sumn_scal_r. apply sumn_ext. intros i _. rewrite sumn_scal. reflexivity. Qed.
Lemma pd_pivot n A : pd (S n) A -> 0 < A 0%nat 0%nat.
Proof.
  intros (Hs & H). specialize (H (fun i => if Nat.eqb i 0 then 1 else 0) ltac:(exists 0%nat; split; [lia|cbn; lra])).
  rewrite quad_split in H by (intros; apply Hs; lia). cbn [Nat.eqb] in H.
  rewrite (sumn_ext n (fun j => A 0%nat (S j) * 0) (fun _ => 0)) in H by (intros; ring).
  rewrite (sumn_ext n (fun i => sumn n (fun j => 0 * A (S i) (S j) * 0)) (fun _ => 0)) in H; [rewrite sumn_0 in H; lra|].
  intros i _. rewrite (sumn_ext n _ (fun _ => 0)) by (intros; ring). apply sumn_0.
Qed.
Lemma pd_schur n A : pd (S n) A -> pd n (schur A).
Proof.
  intros HP. pose proof (pd_pivot n A HP) as Ha. destruct HP as (Hs & H). split.
  - intros i j Hi Hj. unfold schur. rewrite (Hs (S i) (S j)), (Hs (S i) 0%nat), (Hs 0%nat (S j)) by lia. field. lra.
  - intros z (i & Hi & Hz). set (a := A 0%nat 0%nat) in *. set (b := sumn n (fun j => A 0%nat (S j) * z j)).
    pose (z' := fun k => match k with O => - b / a | S k => z k end).
    specialize (H z' ltac:(exists (S i); split; [lia|exact Hz])). rewrite quad_split in H by (intros; apply Hs; lia). cbn [z'] in H. fold a b in H.
    eapply Rlt_le_trans; [exact H|]. right. unfold quad, schur. fold a.
    rewrite (sumn_ext n (fun i => sumn n (fun j => z i * (A (S i) (S j) - A (S i) 0%nat * A 0%nat (S j) / a) * z j))
      (fun i => sumn n (fun j => z i * A (S i) (S j) * z j) - / a * sumn n (fun j => (A 0%nat (S i) * z i) * (A 0%nat (S j) * z j)))).
    + rewrite sumn_minus, sumn_scal, double_scal. fold b. field. lra.
    + intros k Hk. rewrite <- sumn_scal, <- sumn_minus. apply sumn_ext. intros j Hj. rewrite (Hs (S k) 0%nat) by lia. field. lra.
Qed.
Lemma det_pos n : forall A, pd n A -> 0 < det n A.
Proof.
  induction n as [|n IH]; intros A H; [cbn; lra|]. cbn [det]. apply Rmult_lt_0_compat; [apply (pd_pivot n A H)|apply IH, pd_schur, H].
Qed.
Lemma prodn_ext n f g : (forall i, (i < n)%nat -> f i = g i) -> prodn n f = prodn n g.
Proof. induction n as [|n IH]; intros H; [reflexivity|]. cbn [prodn]. rewrite IH, H by (auto; intros; apply H; lia). reflexivity. Qed.
Lemma prodn_S_l n f : prodn (S n) f = f 0%nat * prodn n (fun i => f (S i)).
Proof. induction n as [|n IH]; [cbn; ring|]. cbn [prodn] in *. rewrite IH. ring. Qed.
Lemma prodn_nonneg n f : (forall i, (i < n)%nat -> 0 <= f i) -> 0 <= prodn n f.
Proof. induction n as [|n IH]; intros H; cbn [prodn]; [lra|]. apply Rmult_le_pos; [apply IH; intros; apply H; lia|apply H; lia]. Qed.
Lemma prodn_pos n f : (forall i, (i < n)%nat -> 0 < f i) -> 0 < prodn n f.
Proof. induction n as [|n IH]; intros H; cbn [prodn]; [lra|]. apply Rmult_lt_0_compat; [apply IH; intros; apply H; lia|apply H; lia]. Qed.
Lemma prodn_le n f g : (forall i, (i < n)%nat -> 0 <= f i <= g i) -> prodn n f <= prodn n g.
Proof.
  induction n as [|n IH]; intros H; cbn [prodn]; [lra|]. apply Rmult_le_compat.
  - apply prodn_nonneg. intros i Hi. apply (H i). lia.
  - apply (H n). lia.
  - apply IH. intros; apply H; lia.
  - apply (H n). lia.
Qed.
Lemma pd_diag n A i : pd n A -> (i < n)%nat -> 0 < A i i.
Proof.
  intros (_ & H) Hi. specialize (H (fun k => if Nat.eqb i k then 1 else 0) ltac:(exists i; rewrite Nat.eqb_refl; split; [exact Hi|lra])).
  unfold quad in H. rewrite (sumn_ext n _ (fun k => (if Nat.eqb i k then 1 else 0) * A k i)) in H; [rewrite sumn_delta in H by exact Hi; exact H|].
  intros k Hk. rewrite (sumn_ext n _ (fun j => (if Nat.eqb i j then 1 else 0) * ((if Nat.eqb i k then 1 else 0) * A k j))) by (intros; ring).
  rewrite sumn_delta by exact Hi. reflexivity.
Qed.
(** Hadamard's inequality *)
Lemma det_le_diag n : forall A, pd n A -> det n A <= prodn n (fun i => A i i).
Proof.
  induction n as [|n IH]; intros A H; [cbn; lra|]. cbn [det]. rewrite prodn_S_l. pose proof (pd_pivot n A H) as Ha. pose proof (pd_schur n A H) as Hs.
  apply Rmult_le_compat_l; [lra|]. eapply Rle_trans; [apply IH, Hs|]. apply prodn_le. intros i Hi. split; [left; apply (pd_diag n); auto|].
  unfold schur. destruct H as (Hy & _). rewrite (Hy (S i) 0%nat) by lia.
  assert (0 <= A 0%nat (S i) * A 0%nat (S i) / A 0%nat 0%nat); [|lra]. apply Rmult_le_pos; [nra|left; apply Rinv_0_lt_compat; exact Ha].
Qed.
(** linear systems have solutions *)
Lemma pd_solve n : forall A x, pd n A -> exists v, forall i, (i < n)%nat -> sumn n (fun j => A i j * v j) = x i.
Proof.
  induction n as [|n IH]; intros A x H; [exists (fun _ => 0); intros; lia|]. pose proof (pd_pivot n A H) as Ha. pose proof (pd_schur n A H) as Hs.
  destruct (IH (schur A) (fun i => x (S i) - A (S i) 0%nat * x 0%nat / A 0%nat 0%nat) Hs) as (v & Hv). set (a := A 0%nat 0%nat) in *.
  set (b := sumn n (fun j => A 0%nat (S j) * v j)). exists (fun k => match k with O => (x 0%nat - b) / a | S k => v k end).
  intros [|i] Hi; rewrite sumn_S_l; cbv beta iota.
  - fold a b. field. lra.
  - specialize (Hv i ltac:(lia)). unfold schur in Hv. fold a in Hv.
    rewrite (sumn_ext n (fun j => (A (S i) (S j) - A (S i) 0%nat * A 0%nat (S j) / a) * v j) (fun j => A (S i) (S j) * v j - (A (S i) 0%nat / a) * (A 0%nat (S j) * v j))) in Hv by (intros; field; lra).
    rewrite sumn_minus, sumn_scal in Hv. fold b in Hv. apply Rminus_diag_uniq. rewrite <- (Rminus_diag_eq _ _ Hv). field. lra.
Qed.
(** the determinant after a rank-one update *)
Lemma det_update n : forall A x v c, pd n A -> 0 <= c -> (forall i, (i < n)%nat -> sumn n (fun j => A i j * v j) = x i) ->
  det n (fun i j => A i j + c * (x i * x j)) = det n A * (1 + c * sumn n (fun i => x i * v i)).
Proof.
  induction n as [|n IH]; intros A x v c H Hc Hv; [cbn; ring|]. pose proof (pd_pivot n A H) as Ha. pose proof (pd_schur n A H) as Hs.
  assert (Hsym : forall i, (i < n)%nat -> A (S i) 0%nat = A 0%nat (S i)) by (intros i Hi; apply H; lia).
  cbn [det]. set (a := A 0%nat 0%nat) in *. set (x0 := x 0%nat) in *. assert (Hp : 0 < a + c * (x0 * x0)) by nra.
  set (c' := c * a / (a + c * (x0 * x0))). set (z := fun i => x (S i) - A 0%nat (S i) * x0 / a).
  assert (Hc' : 0 <= c') by (apply Rmult_le_pos; [apply Rmult_le_pos; lra|left; apply Rinv_0_lt_compat; exact Hp]).
  rewrite (det_ext n _ (fun i j => schur A i j + c' * (z i * z j))).
  2: { intros i j Hi Hj. unfold schur, z, c'. fold a x0. rewrite (Hsym i Hi). field. split; lra. }
  pose proof (Hv 0%nat ltac:(lia)) as H0. rewrite sumn_S_l in H0. fold a x0 in H0. set (b := sumn n (fun j => A 0%nat (S j) * v (S j))) in *.
  rewrite (IH (schur A) z (fun i => v (S i)) c' Hs Hc').
  - rewrite sumn_S_l. fold x0. unfold z.
    rewrite (sumn_ext n (fun i => (x (S i) - A 0%nat (S i) * x0 / a) * v (S i)) (fun i => x (S i) * v (S i) - (x0 / a) * (A 0%nat (S i) * v (S i)))) by (intros; field; lra).
    rewrite sumn_minus, sumn_scal. fold b. set (s := sumn n (fun i => x (S i) * v (S i))).
    assert (Eb : b = x0 - a * v 0%nat) by lra. rewrite Eb. unfold c'. field. split; lra.
  - intros i Hi. pose proof (Hv (S i) ltac:(lia)) as Hi'. rewrite sumn_S_l in Hi'. unfold schur, z. fold a.
    rewrite (sumn_ext n _ (fun j => A (S i) (S j) * v (S j) - (A (S i) 0%nat / a) * (A 0%nat (S j) * v (S j)))) by (intros; field; lra).
    rewrite sumn_minus, sumn_scal. fold b. rewrite (Hsym i Hi) in *. assert (Eb : b = x0 - a * v 0%nat) by lra. rewrite Eb.
    rewrite <- Hi'. field. lra.
Qed.

Lemma ln_mono a b : 0 < a -> a <= b -> ln a <= ln b.
Proof. intros Ha [H | ->]; [left; apply ln_increasing; assumption|lra]. Qed.
Lemma ln_frac q : 0 <= q -> q / (1 + q) <= ln (1 + q).
Proof.
  intros Hq. pose proof (exp_ineq1_le (- ln (1 + q))) as H. rewrite exp_Ropp, exp_ln in H by lra.
  replace (q / (1 + q)) with (1 - / (1 + q)) by (field; lra). lra.
Qed.
Lemma ln_prodn n f : (forall i, (i < n)%nat -> 0 < f i) -> ln (prodn n f) = sumn n (fun i => ln (f i)).
Proof.
  induction n as [|n IH]; intros H; cbn [prodn sumn]; [apply ln_1|]. rewrite ln_mult; [rewrite IH; [reflexivity|intros; apply H; lia]|apply prodn_pos; intros; apply H; lia|apply H; lia].
Qed.
Lemma sumn_dg n (a : R) f i : (i < n)%nat -> sumn n (fun j => (if Nat.eqb i j then a else 0) * f j) = a * f i.
Proof.
  intros Hi. rewrite (sumn_ext n _ (fun j => (if Nat.eqb i j then 1 else 0) * (a * f j))).
  - rewrite sumn_delta by exact Hi. reflexivity.
  - intros j _. destruct (Nat.eqb i j); ring.
Qed.
Lemma det_diag n a : a <> 0 -> det n (fun i j => if Nat.eqb i j then a else 0) = a ^ n.
Proof.
  intros Ha. induction n as [|n IH]; [reflexivity|]. cbn [det Nat.eqb pow]. f_equal. rewrite <- IH. apply det_ext. intros i j _ _. unfold schur. cbn [Nat.eqb]. destruct (Nat.eqb i j); field; exact Ha.
Qed.

(** the matrix eps I + sum_{l<k} x_l x_l^T *)
Definition gram (eps : R) (x : list rvec) (k i j : nat) : R :=
  (if Nat.eqb i j then eps else 0) + sumn k (fun l => nth i (nth l x []) 0 * nth j (nth l x []) 0).
Lemma gram_bilin n eps x k u v : length u = n -> length v = n -> (forall l, (l < k)%nat -> length (nth l x []) = n) ->
  sumn n (fun i => nth i u 0 * sumn n (fun j => gram eps x k i j * nth j v 0)) = sumn k (fun l => Rdot u (nth l x []) * Rdot v (nth l x [])) + eps * Rdot u v.
Proof.
  intros Lu Lv Lx. unfold gram.
  rewrite (sumn_ext n _ (fun i => eps * (nth i u 0 * nth i v 0) + sumn k (fun l => (nth i u 0 * nth i (nth l x []) 0) * Rdot v (nth l x [])))).
  - rewrite sumn_plus, sumn_scal, <- (Rdot_sumn n) by assumption. rewrite sumn_swap.
    rewrite (sumn_ext k _ (fun l => Rdot u (nth l x []) * Rdot v (nth l x []))); [ring|].
    intros l Hl. rewrite sumn_scal_r, <- (Rdot_sumn n) by auto. reflexivity.
  - intros i Hi.
    rewrite (sumn_ext n _ (fun j => (if Nat.eqb i j then eps else 0) * nth j v 0 + sumn k (fun l => nth i (nth l x []) 0 * (nth j v 0 * nth j (nth l x []) 0)))).
    + rewrite sumn_plus, sumn_dg by exact Hi. rewrite Rmult_plus_distr_l. f_equal; [ring|]. rewrite sumn_swap, <- sumn_scal. apply sumn_ext. intros l Hl.
      rewrite sumn_scal, <- (Rdot_sumn n) by auto. ring.
    + intros j Hj. rewrite Rmult_plus_distr_r. f_equal. rewrite <- sumn_scal_r. apply sumn_ext. intros; ring.
Qed.
Lemma nth_tab n (z : nat -> R) i : (i < n)%nat -> nth i (map z (seq 0 n)) 0 = z i.
Proof. intros Hi. rewrite (nth_indep _ 0 (z 0%nat)) by (rewrite map_length, seq_length; exact Hi). rewrite map_nth, seq_nth by exact Hi. reflexivity. Qed.
Lemma gram_pd n eps x k : 0 < eps -> (forall l, (l < k)%nat -> length (nth l x []) = n) -> pd n (gram eps x k).
Proof.
  intros He Lx. split.
  - intros i j _ _. unfold gram. rewrite (Nat.eqb_sym i j). f_equal. apply sumn_ext. intros; ring.
  - intros z (i & Hi & Hz). set (v := map z (seq 0 n)). assert (Lv : length v = n) by (unfold v; rewrite map_length, seq_length; reflexivity).
    pose proof (gram_bilin n eps x k v v Lv Lv Lx) as HB.
    replace (quad n (gram eps x k) z) with (sumn n (fun i => nth i v 0 * sumn n (fun j => gram eps x k i j * nth j v 0))).
    + rewrite HB. assert (0 <= sumn k (fun l => Rdot v (nth l x []) * Rdot v (nth l x []))) by (apply sumn_nonneg; intros; nra).
      assert (0 < Rdot v v); [|assert (0 < eps * Rdot v v) by (apply Rmult_lt_0_compat; assumption); lra].
      rewrite (Rdot_sumn n) by assumption.
      assert (H1 : z i * z i <= sumn n (fun j => nth j v 0 * nth j v 0)).
      { rewrite <- (sumn_delta n i (fun j => z j * z j) Hi). apply sumn_le. intros j Hj. unfold v. rewrite nth_tab by exact Hj. destruct (Nat.eqb i j); nra. }
      nra.
    + unfold quad. apply sumn_ext. intros a Ha. rewrite <- sumn_scal. apply sumn_ext. intros b Hb. unfold v. rewrite !nth_tab by assumption. ring.
Qed.

Section S.
  Variable solve : list rvec -> list rvec -> option (list rvec).
  #[local] Hint Extern 0 (Num R) => exact (RNum solve) : typeclass_instances.
  Notation obj := (obj R).

  (** one sample: the error before learning is 1 + q times the error after, where 1 + q is the factor by which the
      determinant of the matrix grows *)
  Lemma one_sample n eps (o o' : obj) d x e w k : rls_run solve n eps o o' d x e w -> o_mu o = 1 -> (k < length x)%nat ->
    exists q, 0 <= q /\ nth k e 0 = (1 + q) * error_after w (o_w o') d x k /\
      det n (gram eps x (S k)) = det n (gram eps x k) * (1 + q).
  Proof.
    intros HR Hm Hk. assert (He : 0 < eps) by (destruct HR as (rng & kw & R0 & y & H); tauto).
    assert (Hek : nth k e 0 = nth k d 0 - Rdot (wrow w (o_w o') k) (nth k x [])).
    { destruct HR as (rng & kw & R0 & y & Hrng & Hkw & Hn & Hnew & HE & Heps & Hmu & Hx & HR). 
      exact (proj1 (W_err solve rng kw n o o' eps R0 d x y e w Hrng Hkw Hn Hnew HE Hx HR k Hk)). }
    set (zero := map (fun _ => 0) (seq 0 n)). 
    destruct (normal solve n eps o o' d x e w k zero HR ltac:(lia) ltac:(unfold zero; rewrite map_length, seq_length; reflexivity)) as (Lw & Lo & Lx & _).
    set (xk := nth k x []) in *. assert (Lk : length xk = n) by (apply Lx; exact Hk).
    assert (Hpd : pd n (gram eps x k)) by (apply gram_pd; [exact He|intros; apply Lx; lia]).
    destruct (pd_solve n (gram eps x k) (fun i => nth i xk 0) Hpd) as (vf & Hv).
    set (v := map vf (seq 0 n)). assert (Lv : length v = n) by (unfold v; rewrite map_length, seq_length; reflexivity).
    assert (Hv' : forall i, (i < n)%nat -> sumn n (fun j => gram eps x k i j * nth j v 0) = nth i xk 0).
    { intros i Hi. rewrite <- (Hv i Hi). apply sumn_ext. intros j Hj. unfold v. rewrite nth_tab by exact Hj. reflexivity. }
    destruct (normal solve n eps o o' d x e w k v HR ltac:(lia) Lv) as (_ & _ & _ & N0).
    destruct (normal solve n eps o o' d x e w (S k) v HR ltac:(lia) Lv) as (Lw' & _ & _ & N1).
    rewrite Hm in N0, N1. cbn [sumn] in N1.
    set (wk := wrow w (o_w o') k) in *. set (wk' := wrow w (o_w o') (S k)) in *. set (u := vsub wk' wk). assert (Lu : length u = n) by (apply vsub_length; auto).
    set (post := error_after w (o_w o') d x k).
    assert (Hpost : post = nth k d 0 - Rdot wk' xk) by reflexivity.
    assert (Hu : forall l, (l < length x)%nat -> Rdot u (nth l x []) = Rdot wk' (nth l x []) - Rdot wk (nth l x [])).
    { intros l Hl. apply Rdot_vsub_l; [congruence|rewrite Lx by exact Hl; congruence]. }
    assert (HBu : forall z, length z = n -> sumn n (fun i => nth i z 0 * sumn n (fun j => gram eps x k i j * nth j v 0)) = Rdot z xk).
    { intros z Lz. rewrite (Rdot_sumn n) by assumption. apply sumn_ext. intros i Hi. rewrite Hv' by exact Hi. reflexivity. }
    assert (HB : Rdot u xk = post * Rdot v xk).
    { rewrite <- (HBu u Lu), gram_bilin by (auto; intros; apply Lx; lia).
      rewrite !pow1, !Rmult_1_l in N0, N1.
      assert (E1 : sumn k (fun i => 1 ^ (S k - 1 - i) * (nth i d 0 - Rdot wk' (nth i x [])) * Rdot v (nth i x [])) =
        sumn k (fun i => 1 ^ (k - 1 - i) * (nth i d 0 - Rdot wk (nth i x [])) * Rdot v (nth i x [])) - sumn k (fun l => Rdot u (nth l x []) * Rdot v (nth l x []))).
      { rewrite <- sumn_minus. apply sumn_ext. intros i Hi. rewrite !pow1, (Hu i) by lia. ring. }
      rewrite E1, N0 in N1. fold xk in N1. rewrite <- Hpost in N1.
      assert (E2 : Rdot u v = Rdot (vsub wk' (o_w o)) v - Rdot (vsub wk (o_w o)) v).
      { unfold u. rewrite !Rdot_vsub_l by congruence. ring. }
      rewrite E2. rewrite (Rdot_comm v xk) in *. rewrite pow1, Rmult_1_l in N1. lra. }
    exists (Rdot v xk). split; [|split].
    - rewrite <- (HBu v Lv), gram_bilin by (auto; intros; apply Lx; lia). pose proof (normsq_nonneg v) as Hp. unfold normsq in Hp.
      assert (0 <= sumn k (fun l => Rdot v (nth l x []) * Rdot v (nth l x []))) by (apply sumn_nonneg; intros; nra). assert (0 <= eps * Rdot v v) by (apply Rmult_le_pos; lra). lra.
    - rewrite Hek. fold post. specialize (Hu k Hk). fold xk in Hu. lra.
    - rewrite (det_ext n _ (fun i j => gram eps x k i j + 1 * (nth i xk 0 * nth j xk 0))).
      + rewrite (det_update n (gram eps x k) (fun i => nth i xk 0) (fun i => nth i v 0) 1 Hpd ltac:(lra) Hv').
        f_equal. f_equal. rewrite Rmult_1_l, (Rdot_sumn n) by assumption. apply sumn_ext. intros; ring.
      + intros i j _ _. unfold gram. cbn [sumn]. fold xk. ring.
  Qed.

  (** *** C122: regret *)
  Theorem C122_regret : forall n eps (o o' : obj) d x e w E N v, rls_run solve n eps o o' d x e w -> o_mu o = 1 ->
    (N <= length x)%nat -> (forall k, (k < N)%nat -> Rabs (nth k e 0) <= E) -> length v = n ->
    sumn N (fun k => nth k e 0 ^ 2) <=
      sumn N (fun k => (nth k d 0 - Rdot v (nth k x [])) ^ 2) + eps * normsq (vsub v (o_w o)) +
      E ^ 2 * sumn n (fun i => ln (1 + sumn N (fun k => nth i (nth k x []) 0 ^ 2) / eps)).
  Proof.
    intros n eps o o' d x e w E N v HR Hm HN HE Lv. assert (He : 0 < eps) by (destruct HR as (rng & kw & R0 & y & H); tauto).
    pose proof HR as (rng & kw & R0 & y & Hrng & Hkw & Hn & Hnew & HEx & Heps & Hmu & Hx & Hrun).
    destruct (C73_errors_add_up solve rng kw n o o' eps R0 d x y e w Hrng Hkw Hn Hnew HEx Heps Hmu Hx Hrun N HN) as (_ & Hc). specialize (Hc v Lv).
    unfold cost in Hc. rewrite Hm, pow1, Rmult_1_l in Hc.
    rewrite (sumn_ext N _ (fun i => nth i e 0 * error_after w (o_w o') d x i)) in Hc by (intros; rewrite pow1; ring).
    rewrite (sumn_ext N (fun i => 1 ^ (N - 1 - i) * (nth i d 0 - Rdot v (nth i x [])) ^ 2) (fun i => (nth i d 0 - Rdot v (nth i x [])) ^ 2)) in Hc by (intros; rewrite pow1; ring).
    assert (Lx : forall i, (i < length x)%nat -> length (nth i x []) = n) by (intros; apply nth_rows; auto).
    assert (Hd : forall k, (k <= length x)%nat -> 0 < det n (gram eps x k)) by (intros k Hk; apply det_pos, gram_pd; [exact He|intros; apply Lx; lia]).
    assert (HS : sumn N (fun k => nth k e 0 ^ 2) <= sumn N (fun i => nth i e 0 * error_after w (o_w o') d x i) + E ^ 2 * (ln (det n (gram eps x N)) - ln (det n (gram eps x 0)))).
    { clear Hc. revert HN HE. induction N as [|N IH]; intros HN HE; [cbn [sumn]; lra|]. cbn [sumn].
      specialize (IH ltac:(lia) ltac:(intros; apply HE; lia)).
      destruct (one_sample n eps o o' d x e w N HR Hm ltac:(lia)) as (q & Hq & Hp & HD). specialize (HE N ltac:(lia)).
      rewrite HD, ln_mult by (try lra; apply Hd; lia). pose proof (ln_frac q Hq) as HL.
      set (p := error_after w (o_w o') d x N) in *. set (f := nth N e 0) in *.
      assert (Hf : f ^ 2 <= E ^ 2) by (rewrite <- (pow2_abs f); apply pow_incr; split; [apply Rabs_pos|exact HE]).
      assert (H0 : 0 <= q / (1 + q)) by (apply Rmult_le_pos; [exact Hq|left; apply Rinv_0_lt_compat; lra]).
      assert (H1 : f ^ 2 = f * p + f ^ 2 * (q / (1 + q))).
      { assert (Ep : p = f / (1 + q)) by (rewrite Hp; field; lra). rewrite Ep. field. lra. }
      assert (H2 : f ^ 2 * (q / (1 + q)) <= E ^ 2 * ln (1 + q)) by (apply Rmult_le_compat; try assumption; apply pow2_ge_0).
      lra. }
    assert (HL : ln (det n (gram eps x N)) - ln (det n (gram eps x 0)) <= sumn n (fun i => ln (1 + sumn N (fun k => nth i (nth k x []) 0 ^ 2) / eps))).
    { assert (HG : forall i, gram eps x N i i = eps * (1 + sumn N (fun k => nth i (nth k x []) 0 ^ 2) / eps)).
      { intros i. unfold gram. rewrite Nat.eqb_refl. rewrite (sumn_ext N (fun l => nth i (nth l x []) 0 * nth i (nth l x []) 0) (fun k => nth i (nth k x []) 0 ^ 2)) by (intros; ring). field. lra. }
      assert (Hp : forall i, 0 < 1 + sumn N (fun k => nth i (nth k x []) 0 ^ 2) / eps).
      { intros i. assert (0 <= sumn N (fun k => nth i (nth k x []) 0 ^ 2) / eps); [|lra]. apply Rmult_le_pos; [apply sumn_nonneg; intros; apply pow2_ge_0|left; apply Rinv_0_lt_compat; exact He]. }
      assert (H1 : ln (det n (gram eps x N)) <= ln (prodn n (fun i => gram eps x N i i))).
      { apply ln_mono; [apply Hd; exact HN|]. apply det_le_diag, gram_pd; [exact He|intros; apply Lx; lia]. }
      rewrite ln_prodn in H1 by (intros i Hi; rewrite HG; apply Rmult_lt_0_compat; auto).
      rewrite (sumn_ext n (fun i => ln (gram eps x N i i)) (fun i => ln eps + ln (1 + sumn N (fun k => nth i (nth k x []) 0 ^ 2) / eps))) in H1.
      - rewrite sumn_plus, sumn_same in H1.
        replace (det n (gram eps x 0)) with (eps ^ n); [rewrite ln_pow by exact He; lra|].
        rewrite <- (det_diag n eps) by lra. apply det_ext. intros i j _ _. unfold gram. cbn [sumn]. ring.
      - intros i Hi. rewrite HG, ln_mult by auto. reflexivity. }
    assert (H3 : E ^ 2 * (ln (det n (gram eps x N)) - ln (det n (gram eps x 0))) <= E ^ 2 * sumn n (fun i => ln (1 + sumn N (fun k => nth i (nth k x []) 0 ^ 2) / eps))) by (apply Rmult_le_compat_l; [apply pow2_ge_0|exact HL]).
    lra.
  Qed.

  (** inputs of size at most X *)
  Theorem C122_log : forall n eps (o o' : obj) d x e w E X N v, rls_run solve n eps o o' d x e w -> o_mu o = 1 ->
    (N <= length x)%nat -> (forall k, (k < N)%nat -> Rabs (nth k e 0) <= E) ->
    (forall k i, (k < N)%nat -> (i < n)%nat -> Rabs (nth i (nth k x []) 0) <= X) -> length v = n ->
    sumn N (fun k => nth k e 0 ^ 2) <=
      sumn N (fun k => (nth k d 0 - Rdot v (nth k x [])) ^ 2) + eps * normsq (vsub v (o_w o)) + INR n * E ^ 2 * ln (1 + INR N * X ^ 2 / eps).
  Proof.
    intros n eps o o' d x e w E X N v HR Hm HN HE HX Lv. assert (He : 0 < eps) by (destruct HR as (rng & kw & R0 & y & H); tauto).
    eapply Rle_trans; [apply (C122_regret n eps o o' d x e w E N v); assumption|]. apply Rplus_le_compat_l.
    rewrite (Rmult_comm (INR n)), Rmult_assoc. apply Rmult_le_compat_l; [apply pow2_ge_0|]. rewrite <- sumn_same. apply sumn_le. intros i Hi.
    assert (Hi0 : 0 < / eps) by (apply Rinv_0_lt_compat; exact He).
    assert (H0 : 0 <= sumn N (fun k => nth i (nth k x []) 0 ^ 2)) by (apply sumn_nonneg; intros; apply pow2_ge_0).
    apply ln_mono.
    - assert (0 <= sumn N (fun k => nth i (nth k x []) 0 ^ 2) / eps) by (apply Rmult_le_pos; lra). lra.
    - apply Rplus_le_compat_l. apply Rmult_le_compat_r; [lra|]. rewrite <- sumn_same. apply sumn_le. intros k Hk.
      rewrite <- (pow2_abs (nth i (nth k x []) 0)). apply pow_incr. split; [apply Rabs_pos|apply HX; assumption].
  Qed.

  (** *** the logarithm is needed, and so is mu = 1 *)
  (** inputs 1, targets 1, -1, 1, -1, ... *)
  Definition alternating (N : nat) : rvec := map (fun k => (-1) ^ k) (seq 0 N).
  Fixpoint acc (mu : R) (k : nat) : R := match k with O => 0 | S k => 1 - mu * acc mu k end.
  Fixpoint wsum (mu : R) (k : nat) : R := match k with O => 1 | S k => mu * wsum mu k + 1 end.
  Lemma alt_sq k : (-1) ^ k * (-1) ^ k = 1.
  Proof. rewrite <- Rpow_mult_distr. replace (-1 * -1) with 1 by ring. apply pow1. Qed.
  Lemma alt_nth N k : (k < N)%nat -> nth k (alternating N) 0 = (-1) ^ k.
  Proof. intros Hk. unfold alternating. apply (nth_tab N (fun k => (-1) ^ k) k Hk). Qed.
  Lemma acc_sum mu k : acc mu k = - (-1) ^ k * sumn k (fun i => mu ^ (k - 1 - i) * (-1) ^ i).
  Proof.
    induction k as [|k IH]; [cbn; ring|]. cbn [acc sumn]. replace (S k - 1 - k)%nat with 0%nat by lia.
    rewrite (sumn_ext k _ (fun i => mu * (mu ^ (k - 1 - i) * (-1) ^ i))).
    - rewrite sumn_scal, IH. cbn [pow]. set (T := sumn k _). pose proof (alt_sq k) as HA. set (p := (-1) ^ k) in *.
      replace (- (-1 * p) * (mu * T + 1 * p)) with (mu * p * T + p * p) by ring. rewrite HA. ring.
    - intros i Hi. replace (S k - 1 - i)%nat with (S (k - 1 - i)) by lia. cbn [pow]. ring.
  Qed.
  Lemma wsum_sum mu k : (1 <= k)%nat -> wsum mu k = mu ^ k + sumn k (fun i => mu ^ (k - 1 - i)).
  Proof.
    intros _. induction k as [|k IH]; [cbn; ring|]. cbn [wsum sumn]. replace (S k - 1 - k)%nat with 0%nat by lia. rewrite IH.
    rewrite (sumn_ext k (fun i => mu ^ (S k - 1 - i)) (fun i => mu * mu ^ (k - 1 - i))).
    - rewrite sumn_scal. cbn [pow]. ring.
    - intros i Hi. replace (S k - 1 - i)%nat with (S (k - 1 - i)) by lia. reflexivity.
  Qed.
  Lemma acc_range mu k : 0 < mu <= 1 -> 0 <= acc mu k <= 1 /\ 1 <= wsum mu k.
  Proof.
    intros Hmu. induction k as [|k IH]; cbn [acc wsum]; [lra|]. assert (0 <= mu * acc mu k <= 1).
    { split; [apply Rmult_le_pos; lra|]. replace 1 with (1 * 1) by ring. apply Rmult_le_compat; lra. }
    assert (0 <= mu * wsum mu k) by (apply Rmult_le_pos; lra). lra.
  Qed.
  Lemma alt_error mu (o o' : obj) e w N k : rls_run solve 1 1 o o' (alternating N) (repeat [1] N) e w -> o_mu o = mu -> 0 < mu <= 1 -> o_w o = [0] -> (k < N)%nat ->
    nth k e 0 = (-1) ^ k * (1 + acc mu k / wsum mu k).
  Proof.
    intros HR Hm Hmu Hw Hk. assert (HX : forall i, (i < N)%nat -> nth i (repeat [1] N) [] = [1]) by (intros i Hi; apply (repeat_spec N); apply nth_In; rewrite repeat_length; exact Hi).
    assert (Hek : nth k e 0 = nth k (alternating N) 0 - Rdot (wrow w (o_w o') k) (nth k (repeat [1] N) [])).
    { destruct HR as (rng & kw & R0 & y & Hrng & Hkw & Hn & Hnew & HE & Heps & Hmu' & Hx & HR). 
      exact (proj1 (W_err solve rng kw 1 o o' 1 R0 _ _ y e w Hrng Hkw Hn Hnew HE Hx HR k ltac:(rewrite repeat_length; exact Hk))). }
    destruct (normal solve 1 1 o o' _ _ e w k [1] HR ltac:(rewrite repeat_length; lia) eq_refl) as (Lw & _ & _ & HN). rewrite Hm, Hw in HN.
    rewrite HX, alt_nth in Hek by exact Hk. destruct (wrow w (o_w o') k) as [|wk [|]]; try discriminate Lw. cbn [Rdot] in Hek. cbn [vsub map2 Rdot] in HN.
    rewrite (sumn_ext k _ (fun i => mu ^ (k - 1 - i) * (-1) ^ i - wk * mu ^ (k - 1 - i))) in HN.
    2: { intros i Hi. rewrite HX, alt_nth by lia. cbn [Rdot]. ring. }
    rewrite sumn_minus, sumn_scal in HN. pose proof (alt_sq k) as HA. destruct (acc_range mu k Hmu) as (_ & Hs).
    assert (H1 : wsum mu k * ((-1) ^ k * wk) = - acc mu k).
    { rewrite acc_sum. destruct k as [|k]; [cbn in HN |- *; lra|]. rewrite wsum_sum by lia. set (s := sumn (S k) (fun i => mu ^ (S k - 1 - i) * (-1) ^ i)) in *. set (t := sumn (S k) (fun i => mu ^ (S k - 1 - i))) in *.
      replace (s - wk * t) with (s - wk * t + 0) in HN by ring. 
      replace (- (- (-1) ^ S k * s)) with ((-1) ^ S k * s) by ring. replace s with ((mu ^ S k + t) * wk) by lra. ring. }
    assert (H2 : (-1) ^ k * wk = - (acc mu k / wsum mu k)) by (apply (Rmult_eq_reg_l (wsum mu k)); [rewrite H1; field; lra|lra]).
    rewrite Hek. replace (wk * 1 + 0) with (((-1) ^ k * (-1) ^ k) * wk) by (rewrite HA; ring). rewrite Rmult_assoc, H2. ring.
  Qed.
  Lemma alt_run mu N : 0 < mu -> (0 < N)%nat -> exists (o o' : obj) e w, rls_run solve 1 1 o o' (alternating N) (repeat [1] N) e w /\ o_mu o = mu /\ o_w o = [0].
  Proof. intros Hmu HN. apply run_t; [exact Hmu|unfold alternating; rewrite map_length, seq_length; reflexivity|exact HN]. Qed.
  Lemma alt_sqr k t : ((-1) ^ k * (1 + t)) ^ 2 = 1 + 2 * t + t ^ 2.
  Proof. replace (((-1) ^ k * (1 + t)) ^ 2) with ((-1) ^ k * (-1) ^ k * (1 + t) ^ 2) by ring. rewrite alt_sq. ring. Qed.
  Lemma alt_abs k t : 0 <= t <= 1 -> Rabs ((-1) ^ k * (1 + t)) <= 2.
  Proof. intros Ht. rewrite Rabs_mult, pow_1_abs, Rabs_right by lra. lra. Qed.

  (** without forgetting: the regret against the weights 0 after 2M samples is at least ln (M + 1) *)
  Theorem C122_log_needed : forall M, (0 < M)%nat -> exists (o o' : obj) e w,
    rls_run solve 1 1 o o' (alternating (2 * M)) (repeat [1] (2 * M)) e w /\ o_mu o = 1 /\ o_w o = [0] /\ (forall k, (k < 2 * M)%nat -> Rabs (nth k e 0) <= 2) /\
    sumn (2 * M) (fun k => (nth k (alternating (2 * M)) 0 - Rdot [0] (nth k (repeat [1] (2 * M)) [])) ^ 2) + 1 * normsq (vsub [0] (o_w o)) + ln (INR M + 1) <=
      sumn (2 * M) (fun k => nth k e 0 ^ 2).
  Proof.
    intros M HM. destruct (alt_run 1 (2 * M) ltac:(lra) ltac:(lia)) as (o & o' & e & w & HR & Hm & Hw). exists o, o', e, w. split; [exact HR|]. split; [exact Hm|]. split; [exact Hw|].
    assert (HX : forall i, (i < 2 * M)%nat -> nth i (repeat [1] (2 * M)) [] = [1]) by (intros i Hi; apply (repeat_spec (2 * M)); apply nth_In; rewrite repeat_length; exact Hi).
    assert (He : forall k, (k < 2 * M)%nat -> nth k e 0 = (-1) ^ k * (1 + acc 1 k / wsum 1 k)) by (intros k Hk; apply (alt_error 1 o o' e w (2 * M) k HR Hm ltac:(lra) Hw Hk)).
    assert (Ht : forall k, 0 <= acc 1 k / wsum 1 k <= 1).
    { intros k. destruct (acc_range 1 k ltac:(lra)) as (H1 & H2). split; [apply Rmult_le_pos; [lra|left; apply Rinv_0_lt_compat; lra]|]. apply (Rmult_le_reg_r (wsum 1 k)); [lra|]. unfold Rdiv. rewrite Rmult_assoc, Rinv_l by lra. lra. }
    split; [intros k Hk; rewrite He by exact Hk; apply alt_abs, Ht|].
    rewrite Hw. replace (1 * normsq (vsub [0] [0])) with 0 by (unfold normsq; cbn; ring). rewrite Rplus_0_r.
    rewrite (sumn_ext (2 * M) (fun k => nth k e 0 ^ 2) (fun k => 1 + 2 * (acc 1 k / wsum 1 k) + (acc 1 k / wsum 1 k) ^ 2)) by (intros k Hk; rewrite He by exact Hk; apply alt_sqr).
    rewrite (sumn_ext (2 * M) _ (fun k => 1)).
    2: { intros k Hk. rewrite HX, alt_nth by exact Hk. cbn [Rdot]. pose proof (alt_sq k). set (p := (-1) ^ k) in *. replace ((p - (0 * 1 + 0)) ^ 2) with (p * p) by ring. exact H. }
    clear - Ht. 
    assert (HA : forall j, acc 1 (2 * j) = 0 /\ wsum 1 (2 * j) = 2 * INR j + 1).
    { induction j as [|j (I1 & I2)]; [cbn; lra|]. replace (2 * S j)%nat with (S (S (2 * j))) by lia. cbn [acc wsum]. rewrite I1, I2, S_INR. lra. }
    rewrite sumn_same. induction M as [|M IH].
    - replace (INR 0 + 1) with 1 by (cbn; ring). rewrite ln_1. cbn. lra.
    - replace (2 * S M)%nat with (S (S (2 * M))) by lia. cbn [sumn]. destruct (HA M) as (A1 & A2). cbn [acc wsum]. rewrite A1, A2. rewrite !S_INR. pose proof (pos_INR M) as PM.
      replace ((1 - 1 * 0) / (1 * (2 * INR M + 1) + 1)) with (/ (2 * (INR M + 1))) by (field; lra). pose proof (pow2_ge_0 (/ (2 * (INR M + 1)))).
      assert (HL : ln (INR M + 1 + 1) <= ln (INR M + 1) + / (INR M + 1)).
      { replace (INR M + 1 + 1) with ((INR M + 1) * (1 + / (INR M + 1))) by (field; lra). pose proof (Rinv_0_lt_compat (INR M + 1) ltac:(lra)).
        rewrite ln_mult by lra. apply Rplus_le_compat_l. rewrite <- (ln_exp (/ (INR M + 1))) at 2. apply ln_mono; [lra|apply exp_ineq1_le]. }
      assert (E2 : / (2 * (INR M + 1)) = / 2 * / (INR M + 1)) by (apply Rinv_mult). rewrite E2 in *.
      replace (0 / (2 * INR M + 1)) with 0 by (field; lra). lra.
  Qed.

  (** with forgetting: the regret grows linearly, however close mu is to 1 *)
  Theorem C122_forgetting : forall mu N, 0 < mu < 1 -> (0 < N)%nat -> exists (o o' : obj) e w,
    rls_run solve 1 1 o o' (alternating N) (repeat [1] N) e w /\ o_mu o = mu /\ o_w o = [0] /\ (forall k, (k < N)%nat -> Rabs (nth k e 0) <= 2) /\
    sumn N (fun k => (nth k (alternating N) 0 - Rdot [0] (nth k (repeat [1] N) [])) ^ 2) + 1 * normsq (vsub [0] (o_w o)) + 2 * (1 - mu) ^ 2 * (INR N - 1) <=
      sumn N (fun k => nth k e 0 ^ 2).
  Proof.
    intros mu N Hmu HN. destruct (alt_run mu N ltac:(lra) HN) as (o & o' & e & w & HR & Hm & Hw). exists o, o', e, w. split; [exact HR|]. split; [exact Hm|]. split; [exact Hw|].
    assert (HX : forall i, (i < N)%nat -> nth i (repeat [1] N) [] = [1]) by (intros i Hi; apply (repeat_spec N); apply nth_In; rewrite repeat_length; exact Hi).
    assert (He : forall k, (k < N)%nat -> nth k e 0 = (-1) ^ k * (1 + acc mu k / wsum mu k)) by (intros k Hk; apply (alt_error mu o o' e w N k HR Hm ltac:(lra) Hw Hk)).
    assert (Ht : forall k, 0 <= acc mu k / wsum mu k <= 1).
    { intros k. destruct (acc_range mu k ltac:(lra)) as (H1 & H2). split; [apply Rmult_le_pos; [lra|left; apply Rinv_0_lt_compat; lra]|]. apply (Rmult_le_reg_r (wsum mu k)); [lra|]. unfold Rdiv. rewrite Rmult_assoc, Rinv_l by lra. lra. }
    split; [intros k Hk; rewrite He by exact Hk; apply alt_abs, Ht|].
    rewrite Hw. replace (1 * normsq (vsub [0] [0])) with 0 by (unfold normsq; cbn; ring). rewrite Rplus_0_r.
    rewrite (sumn_ext N (fun k => nth k e 0 ^ 2) (fun k => 1 + 2 * (acc mu k / wsum mu k) + (acc mu k / wsum mu k) ^ 2)) by (intros k Hk; rewrite He by exact Hk; apply alt_sqr).
    rewrite (sumn_ext N _ (fun k => 1)).
    2: { intros k Hk. rewrite HX, alt_nth by exact Hk. cbn [Rdot]. pose proof (alt_sq k). set (p := (-1) ^ k) in *. replace ((p - (0 * 1 + 0)) ^ 2) with (p * p) by ring. exact H. }
    clear - Ht Hmu HN. 
    assert (HA : forall k, 1 - mu <= acc mu (S k)).
    { intros k. cbn [acc]. destruct (acc_range mu k ltac:(lra)) as (H1 & _). assert (mu * acc mu k <= mu * 1) by (apply Rmult_le_compat_l; lra). lra. }
    assert (HW : forall k, wsum mu k * (1 - mu) <= 1).
    { induction k as [|k IH]; cbn [wsum]; [lra|]. assert (mu * (wsum mu k * (1 - mu)) <= mu * 1) by (apply Rmult_le_compat_l; lra). lra. }
    assert (HT : forall k, (1 - mu) ^ 2 <= acc mu (S k) / wsum mu (S k)).
    { intros k. specialize (HA k). specialize (HW (S k)). destruct (acc_range mu (S k) ltac:(lra)) as (_ & H2). apply (Rmult_le_reg_r (wsum mu (S k))); [lra|].
      unfold Rdiv. rewrite Rmult_assoc, Rinv_l, Rmult_1_r by lra. replace ((1 - mu) ^ 2 * wsum mu (S k)) with ((1 - mu) * (wsum mu (S k) * (1 - mu))) by ring.
      apply Rle_trans with ((1 - mu) * 1); [apply Rmult_le_compat_l; lra|lra]. }
    rewrite sumn_same. destruct N as [|N]; [lia|]. clear HN. induction N as [|N IH].
    - cbn [sumn INR]. specialize (Ht 0%nat). pose proof (pow2_ge_0 (acc mu 0 / wsum mu 0)). lra.
    - rewrite S_INR. specialize (HT N). pose proof (pow2_ge_0 (acc mu (S N) / wsum mu (S N))).
      change (sumn (S (S N)) (fun k => 1 + 2 * (acc mu k / wsum mu k) + (acc mu k / wsum mu k) ^ 2)) with
        (sumn (S N) (fun k => 1 + 2 * (acc mu k / wsum mu k) + (acc mu k / wsum mu k) ^ 2) + (1 + 2 * (acc mu (S N) / wsum mu (S N)) + (acc mu (S N) / wsum mu (S N)) ^ 2)).
      set (q := acc mu (S N) / wsum mu (S N)) in *. set (T := sumn (S N) _) in *. set (c := (1 - mu) ^ 2) in *. lra.
  Qed.

  (** *** hypotheses *)
  Example C122_hypotheses : exists (o o' : obj) e w, rls_run solve 1 1 o o' (alternating 6) (repeat [1] 6) e w /\ o_mu o = 1 /\
    (forall k, (k < 6)%nat -> Rabs (nth k e 0) <= 2) /\ (forall k i, (k < 6)%nat -> (i < 1)%nat -> Rabs (nth i (nth k (repeat [1] 6) []) 0) <= 1).
  Proof.
    destruct (C122_log_needed 3 ltac:(lia)) as (o & o' & e & w & HR & Hm & _ & HE & _). exists o, o', e, w. split; [exact HR|]. split; [exact Hm|]. split; [exact HE|].
    intros k i Hk Hi. replace (nth k (repeat [1] 6) []) with [1] by (symmetry; apply (repeat_spec 6); apply nth_In; rewrite repeat_length; exact Hk).
    replace i with 0%nat by lia. cbn [nth]. rewrite Rabs_R1. lra.
  Qed.
End S.
