(** Real vectors as lists: the specification vocabulary of the algebraic properties, and its algebra.
    [Rdot], [Rsum] are in Num.v. *)
From Coq Require Import Reals Lra Psatz.
From Verif Require Import Py Num.
Open Scope R_scope.

Notation rvec := (list R).

(** u + v, u - v, c v, |v|^2, |u - v|^2 *)
Definition vadd (u v : rvec) : rvec := map2 Rplus u v.
Definition vsub (u v : rvec) : rvec := map2 Rminus u v.
Definition vsc (c : R) (v : rvec) : rvec := map (Rmult c) v.
Definition vneg (v : rvec) : rvec := map Ropp v.
Definition normsq (v : rvec) : R := Rdot v v.
Definition distsq (u v : rvec) : R := normsq (vsub u v).

Lemma map2_len {A B C} (f : A -> B -> C) u v :
  length (map2 f u v) = Nat.min (length u) (length v).
Proof. revert v; induction u as [|a u IH]; intros [|b v]; simpl; auto. Qed.

Lemma vadd_length u v n : length u = n -> length v = n -> length (vadd u v) = n.
Proof. intros; unfold vadd; rewrite map2_len; lia. Qed.
Lemma vsub_length u v n : length u = n -> length v = n -> length (vsub u v) = n.
Proof. intros; unfold vsub; rewrite map2_len; lia. Qed.
Lemma vsc_length c v : length (vsc c v) = length v.
Proof. apply map_length. Qed.
Lemma vneg_length v : length (vneg v) = length v.
Proof. apply map_length. Qed.

Lemma Rdot_comm u v : Rdot u v = Rdot v u.
Proof. revert v; induction u as [|a u IH]; intros [|b v]; simpl; auto. rewrite IH; ring. Qed.

Lemma Rdot_vadd_r u v w : length u = length v -> length v = length w ->
  Rdot u (vadd v w) = Rdot u v + Rdot u w.
Proof.
  revert v w; induction u as [|a u IH]; intros [|b v] [|c w]; simpl; intros; try discriminate; try ring.
  unfold vadd in IH; rewrite IH by congruence; ring.
Qed.
Lemma Rdot_vsub_r u v w : length u = length v -> length v = length w ->
  Rdot u (vsub v w) = Rdot u v - Rdot u w.
Proof.
  revert v w; induction u as [|a u IH]; intros [|b v] [|c w]; simpl; intros; try discriminate; try ring.
  unfold vsub in IH; rewrite IH by congruence; ring.
Qed.
Lemma Rdot_vsc_r u c v : Rdot u (vsc c v) = c * Rdot u v.
Proof. revert v; induction u as [|a u IH]; intros [|b v]; simpl; try ring. rewrite IH; ring. Qed.
Lemma Rdot_vsc_l u c v : Rdot (vsc c u) v = c * Rdot u v.
Proof. rewrite Rdot_comm, Rdot_vsc_r, Rdot_comm; reflexivity. Qed.
Lemma Rdot_vadd_l u v w : length v = length w -> length w = length u ->
  Rdot (vadd v w) u = Rdot v u + Rdot w u.
Proof. intros; rewrite Rdot_comm, Rdot_vadd_r, (Rdot_comm u v), (Rdot_comm u w); congruence. Qed.
Lemma Rdot_vsub_l u v w : length v = length w -> length w = length u ->
  Rdot (vsub v w) u = Rdot v u - Rdot w u.
Proof. intros; rewrite Rdot_comm, Rdot_vsub_r, (Rdot_comm u v), (Rdot_comm u w); congruence. Qed.
Lemma Rdot_vneg_r u v : Rdot u (vneg v) = - Rdot u v.
Proof. revert v; induction u as [|a u IH]; intros [|b v]; simpl; try ring. rewrite IH; ring. Qed.
Lemma Rdot_vneg_l u v : Rdot (vneg u) v = - Rdot u v.
Proof. rewrite Rdot_comm, Rdot_vneg_r, Rdot_comm; reflexivity. Qed.
Lemma Rdot_nil_r u : Rdot u [] = 0.
Proof. destruct u; reflexivity. Qed.
Lemma Rdot_zero_r u k : Rdot u (repeat 0 k) = 0.
Proof. revert k; induction u as [|a u IH]; intros [|k]; simpl; auto. rewrite IH; ring. Qed.
Lemma Rdot_zero_l u k : Rdot (repeat 0 k) u = 0.
Proof. rewrite Rdot_comm; apply Rdot_zero_r. Qed.

Lemma normsq_nonneg v : 0 <= normsq v.
Proof. unfold normsq; induction v as [|a v IH]; simpl; [lra|]. pose proof (Rle_0_sqr a); unfold Rsqr in *; lra. Qed.

Lemma normsq_zero v : normsq v = 0 -> v = repeat 0 (length v).
Proof.
  unfold normsq; induction v as [|a v IH]; simpl; auto; intros H.
  pose proof (normsq_nonneg v) as Hv; unfold normsq in Hv.
  assert (Ha : 0 <= a * a) by (pose proof (Rle_0_sqr a); unfold Rsqr in *; lra).
  assert (Rdot v v = 0) by lra. assert (a * a = 0) by lra.
  rewrite <- IH by auto. f_equal. nra.
Qed.

Lemma normsq_vsc c v : normsq (vsc c v) = c * c * normsq v.
Proof. unfold normsq; rewrite Rdot_vsc_l, Rdot_vsc_r; ring. Qed.

Lemma normsq_vadd u v : length u = length v ->
  normsq (vadd u v) = normsq u + 2 * Rdot u v + normsq v.
Proof.
  unfold normsq; intros H.
  rewrite Rdot_vadd_r by (rewrite ?(vadd_length u v (length u)); auto).
  rewrite !Rdot_vadd_l by auto. rewrite (Rdot_comm v u). ring.
Qed.
Lemma normsq_vsub u v : length u = length v ->
  normsq (vsub u v) = normsq u - 2 * Rdot u v + normsq v.
Proof.
  unfold normsq; intros H.
  rewrite Rdot_vsub_r by (rewrite ?(vsub_length u v (length u)); auto).
  rewrite !Rdot_vsub_l by auto. rewrite (Rdot_comm v u). ring.
Qed.

(** distance after moving along x *)
Lemma distsq_move w x c ws : length w = length x -> length ws = length x ->
  distsq (vadd w (vsc c x)) ws = distsq w ws + 2 * c * (Rdot w x - Rdot ws x) + c * c * normsq x.
Proof.
  intros H1 H2; unfold distsq.
  assert (Hl : length (vadd w (vsc c x)) = length x) by (apply vadd_length; rewrite ?vsc_length; auto).
  rewrite !normsq_vsub by congruence.
  rewrite normsq_vadd by (rewrite vsc_length; auto).
  rewrite Rdot_vadd_l by (rewrite ?vsc_length; congruence).
  rewrite normsq_vsc, Rdot_vsc_r, Rdot_vsc_l, (Rdot_comm x ws). ring.
Qed.

Lemma Cauchy_Schwarz u v : (Rdot u v) * (Rdot u v) <= normsq u * normsq v.
Proof.
  revert v; induction u as [|a u IH]; intros [|b v]; unfold normsq in *; simpl; try lra;
    try (pose proof (normsq_nonneg u) as Hu; unfold normsq in Hu; pose proof (Rle_0_sqr a); unfold Rsqr in *; lra).
  specialize (IH v).
  pose proof (normsq_nonneg u) as Hu; pose proof (normsq_nonneg v) as Hv; unfold normsq in *.
  set (p := Rdot u v) in *. set (q := Rdot u u) in *. set (r := Rdot v v) in *.
  (* 2ab p <= a^2 r + b^2 q since (ab p)^2 <= a^2 b^2 q r *)
  assert (Hk : 2 * (a * b) * p <= a * a * r + b * b * q).
  { assert (H0 : 0 <= a * a * r + b * b * q).
    { apply Rplus_le_le_0_compat; apply Rmult_le_pos; auto; apply Rle_0_sqr. }
    destruct (Rle_lt_dec ((a * b) * p) 0) as [Hn|Hp]; [lra|].
    apply Rsqr_incr_0_var; [|lra]. unfold Rsqr.
    assert (Hsq : (a * a * r + b * b * q) * (a * a * r + b * b * q) >= 4 * (a * a * r) * (b * b * q)).
    { pose proof (Rle_0_sqr (a * a * r - b * b * q)) as Hs; unfold Rsqr in Hs; lra. }
    assert (Hm : (a * a) * (b * b) * (p * p) <= (a * a) * (b * b) * (q * r)).
    { apply Rmult_le_compat_l; auto. apply Rmult_le_pos; apply Rle_0_sqr. }
    lra. }
  nra.
Qed.

Lemma vadd_zero_r w k : length w = k -> vadd w (repeat 0 k) = w.
Proof. intros <-; induction w as [|a w IH]; simpl; auto; unfold vadd in *; simpl; rewrite IH, Rplus_0_r; auto. Qed.
Lemma vsc_zero v : vsc 0 v = repeat 0 (length v).
Proof. induction v as [|a v IH]; simpl; auto; unfold vsc in *; rewrite IH, Rmult_0_l; auto. Qed.
Lemma vadd_vsc_0 w x : length w = length x -> vadd w (vsc 0 x) = w.
Proof. intros H; rewrite vsc_zero; apply vadd_zero_r; auto. Qed.

Lemma nth_vadd u v i : length u = length v -> nth i (vadd u v) 0 = nth i u 0 + nth i v 0.
Proof.
  revert v i; induction u as [|a u IH]; intros [|b v] [|i] H; simpl in *; try discriminate; try lra.
  apply IH; lia.
Qed.
Lemma nth_vsub u v i : length u = length v -> nth i (vsub u v) 0 = nth i u 0 - nth i v 0.
Proof.
  revert v i; induction u as [|a u IH]; intros [|b v] [|i] H; simpl in *; try discriminate; try lra.
  apply IH; lia.
Qed.
Lemma nth_vsc c v i : nth i (vsc c v) 0 = c * nth i v 0.
Proof. revert i; induction v as [|a v IH]; intros [|i]; simpl; try ring. apply IH. Qed.

Lemma distsq_zero u v : length u = length v -> distsq u v = 0 -> u = v.
Proof.
  intros Hl H; unfold distsq in H; apply normsq_zero in H.
  revert v Hl H; induction u as [|a u IH]; intros [|b v] Hl H; simpl in *; try discriminate; auto.
  injection H as H1 H2. f_equal; [lra|apply IH; auto].
Qed.

(** a list equality by entries *)
Lemma nth_ext0 (u v : rvec) : length u = length v -> (forall i, (i < length u)%nat -> nth i u 0 = nth i v 0) -> u = v.
Proof. intros Hl H; apply (nth_ext _ _ 0 0); auto. Qed.

Lemma map_vsc (f : R -> R) c x : (forall a, f a = c * a) -> map f x = vsc c x.
Proof. intros H; apply map_ext; auto. Qed.
