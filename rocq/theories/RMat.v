(** Real matrices as lists of rows: how the numpy products act on vectors. *)
From Coq Require Import Reals Lra Psatz.
From Verif Require Import Py Num Numpy StructProofs RVec.
Open Scope R_scope.
Notation rmat := (list (list R)).

(** finite sums over indices *)
Fixpoint sumn (n : nat) (f : nat -> R) : R :=
  match n with O => 0 | S k => sumn k f + f k end.

Lemma sumn_ext n f g : (forall i, (i < n)%nat -> f i = g i) -> sumn n f = sumn n g.
Proof. induction n as [|n IH]; simpl; intros H; auto. rewrite IH, H by (auto; intros; apply H; lia). reflexivity. Qed.
Lemma sumn_plus n f g : sumn n (fun i => f i + g i) = sumn n f + sumn n g.
Proof. induction n as [|n IH]; simpl; [ring|]. rewrite IH; ring. Qed.
Lemma sumn_minus n f g : sumn n (fun i => f i - g i) = sumn n f - sumn n g.
Proof. induction n as [|n IH]; simpl; [ring|]. rewrite IH; ring. Qed.
Lemma sumn_scal n c f : sumn n (fun i => c * f i) = c * sumn n f.
Proof. induction n as [|n IH]; simpl; [ring|]. rewrite IH; ring. Qed.
Lemma sumn_scal_r n c f : sumn n (fun i => f i * c) = sumn n f * c.
Proof. induction n as [|n IH]; simpl; [ring|]. rewrite IH; ring. Qed.
Lemma sumn_0 n : sumn n (fun _ => 0) = 0.
Proof. induction n as [|n IH]; simpl; [ring|]. rewrite IH; ring. Qed.
Lemma sumn_swap n m f : sumn n (fun i => sumn m (fun j => f i j)) = sumn m (fun j => sumn n (fun i => f i j)).
Proof. induction n as [|n IH]; simpl; [rewrite sumn_0; reflexivity|]. rewrite IH, sumn_plus; reflexivity. Qed.
Lemma sumn_S_l n f : sumn (S n) f = f 0%nat + sumn n (fun i => f (S i)).
Proof. induction n as [|n IH]; simpl in *; [ring|]. rewrite IH; ring. Qed.
Lemma sumn_nonneg n f : (forall i, (i < n)%nat -> 0 <= f i) -> 0 <= sumn n f.
Proof. induction n as [|n IH]; simpl; intros H; [lra|]. pose proof (H n ltac:(lia)). assert (0 <= sumn n f) by (apply IH; intros; apply H; lia). lra. Qed.
Lemma sumn_le n f g : (forall i, (i < n)%nat -> f i <= g i) -> sumn n f <= sumn n g.
Proof. induction n as [|n IH]; simpl; intros H; [lra|]. pose proof (H n ltac:(lia)). assert (sumn n f <= sumn n g) by (apply IH; intros; apply H; lia). lra. Qed.
Lemma sumn_delta n i f : (i < n)%nat -> sumn n (fun j => (if Nat.eqb i j then 1 else 0) * f j) = f i.
Proof.
  induction n as [|n IH]; simpl; intros Hi; [lia|].
  destruct (Nat.eqb_spec i n) as [->|Hne].
  - rewrite (sumn_ext n _ (fun _ => 0)).
    + rewrite sumn_0; ring.
    + intros j Hj. destruct (Nat.eqb_spec n j); [lia|ring].
  - rewrite IH by lia. ring.
Qed.

Lemma Rdot_sumn n u v : length u = n -> length v = n -> Rdot u v = sumn n (fun i => nth i u 0 * nth i v 0).
Proof.
  revert u v; induction n as [|n IH]; intros [|a u] [|b v] Hu Hv; simpl in Hu, Hv; try discriminate; auto.
  rewrite sumn_S_l. cbn [Rdot nth]. rewrite (IH u v) by lia. reflexivity.
Qed.
Lemma Rsum_sumn u : Rsum u = sumn (length u) (fun i => nth i u 0).
Proof.
  induction u as [|a u IH]; auto. cbn [length]. rewrite sumn_S_l. cbn [Rsum nth]. rewrite IH; reflexivity.
Qed.

Section RM.
  Variable solve : list rvec -> list rvec -> option (list rvec).
  #[local] Hint Extern 0 (Num R) => exact (RNum solve) : typeclass_instances.

  Implicit Types A B M : rmat.
  Implicit Types u v w : rvec.
  Definition ent (A : rmat) (i j : nat) : R := nth j (nth i A []) 0.
  Definition shape (r c : nat) (A : rmat) : Prop := length A = r /\ Forall (fun x => length x = c) A.

  Lemma shape_row r c A i : shape r c A -> (i < r)%nat -> length (nth i A []) = c.
  Proof. intros (Hl & Hf) Hi. rewrite Forall_nth in Hf. apply Hf; lia. Qed.

  Lemma map_nth_lt {X Y : Type} (f : X -> Y) l i (a : X) (b : Y) : (i < length l)%nat -> nth i (map f l) b = f (nth i l a).
  Proof. intros H. rewrite (nth_indep _ b (f a)) by (rewrite map_length; auto). apply map_nth. Qed.

  Lemma mv_nth A v i : (i < length A)%nat -> nth i (mv A v) 0 = Rdot (nth i A []) v.
  Proof. intros H; unfold mv. rewrite (map_nth_lt _ _ _ ([] : rvec)) by auto. reflexivity. Qed.
  Lemma mv_len A v : length (mv A v) = length A.
  Proof. apply map_length. Qed.

  Lemma column_nth A i j : (i < length A)%nat -> nth i (column j A) 0 = ent A i j.
  Proof. intros H; unfold column, ent. rewrite (map_nth_lt _ _ _ ([] : rvec)) by auto. reflexivity. Qed.
  Lemma column_len A j : length (column j A) = length A.
  Proof. apply map_length. Qed.
  Lemma transpose_nth c A j : (j < c)%nat -> nth j (transpose c A) [] = column j A.
  Proof. intros H; unfold transpose. rewrite (map_nth_lt _ _ _ 0%nat) by (rewrite seq_length; auto). rewrite seq_nth by auto. reflexivity. Qed.
  Lemma transpose_len c A : length (transpose c A) = c.
  Proof. unfold transpose; rewrite map_length, seq_length; auto. Qed.
  Lemma transpose_shape c r A : length A = r -> shape c r (transpose c A).
  Proof.
    intros H; split; [apply transpose_len|]. unfold transpose. apply Forall_map, Forall_forall. intros j _. rewrite column_len; auto.
  Qed.
  Lemma transpose_ent c A i j : (i < length A)%nat -> (j < c)%nat -> ent (transpose c A) j i = ent A i j.
  Proof. intros Hi Hj. unfold ent at 1. rewrite transpose_nth by auto. apply column_nth; auto. Qed.

  (** mv entry *)
  Lemma mv_ent r c A v i : shape r c A -> length v = c -> (i < r)%nat ->
    nth i (mv A v) 0 = sumn c (fun j => ent A i j * nth j v 0).
  Proof.
    intros HA Hv Hi. rewrite mv_nth by (destruct HA; lia). rewrite (Rdot_sumn c); auto. eapply shape_row; eauto.
  Qed.

  (** adjoint *)
  Lemma mv_adjoint r c A u v : shape r c A -> length u = r -> length v = c ->
    Rdot u (mv A v) = Rdot (mv (transpose c A) u) v.
  Proof.
    intros HA Hu Hv. pose proof HA as (Hl & _).
    rewrite (Rdot_sumn r) by (rewrite ?mv_len; auto).
    rewrite (Rdot_sumn c) by (rewrite ?mv_len, ?transpose_len; auto).
    rewrite (sumn_ext r _ (fun i => sumn c (fun j => nth i u 0 * (ent A i j * nth j v 0)))).
    2:{ intros i Hi. rewrite (mv_ent r c) by auto. rewrite sumn_scal; reflexivity. }
    rewrite sumn_swap. apply sumn_ext; intros j Hj.
    rewrite (mv_ent c r) by (auto; apply transpose_shape; auto). rewrite <- sumn_scal_r. apply sumn_ext; intros i Hi.
    rewrite transpose_ent by lia. ring.
  Qed.

  Lemma mm_nth c A B i j : (i < length A)%nat -> (j < c)%nat -> ent (mm c A B) i j = Rdot (nth i A []) (column j B).
  Proof.
    intros Hi Hj. unfold ent, mm. rewrite (map_nth_lt _ _ _ ([] : rvec)) by auto.
    rewrite (map_nth_lt _ _ _ ([] : rvec)) by (rewrite transpose_len; auto). rewrite transpose_nth by auto. reflexivity.
  Qed.
  Lemma mm_shape r c A B : length A = r -> shape r c (mm c A B).
  Proof.
    intros H; split; [unfold mm; rewrite map_length; auto|]. unfold mm. apply Forall_map, Forall_forall. intros x _.
    rewrite map_length, transpose_len; auto.
  Qed.

  Lemma mv_mm r k c A B v : shape r k A -> shape k c B -> length v = c ->
    mv (mm c A B) v = mv A (mv B v).
  Proof.
    intros HA HB Hv. pose proof HA as (HlA & _). pose proof HB as (HlB & _).
    pose proof (mm_shape r c A B HlA) as HM.
    apply nth_ext0; [rewrite !mv_len; destruct HM; lia|]. intros i Hi. rewrite mv_len in Hi. destruct HM as (HM1 & HM2).
    assert (Hi' : (i < r)%nat) by lia.
    rewrite (mv_ent r c) by (auto; split; auto). rewrite (mv_ent r k) by (rewrite ?mv_len; auto).
    rewrite (sumn_ext c _ (fun j => sumn k (fun l => ent A i l * (ent B l j * nth j v 0)))).
    - rewrite sumn_swap. apply sumn_ext; intros l Hl. rewrite (mv_ent k c) by auto. rewrite sumn_scal. reflexivity.
    - intros j Hj. rewrite mm_nth by lia.
      rewrite (Rdot_sumn k) by (rewrite ?column_len; auto; eapply shape_row; eauto).
      rewrite <- sumn_scal_r. apply sumn_ext; intros l Hl. rewrite column_nth by lia. unfold ent. ring.
  Qed.

  Lemma mv_outer u v w : mv (outer u v) w = vsc (Rdot v w) u.
  Proof.
    unfold mv, outer, vsc. rewrite map_map. apply map_ext; intros a.
    change (Rdot (vsc a v) w = Rdot v w * a). rewrite Rdot_vsc_l; ring.
  Qed.
  Lemma outer_shape u v : shape (length u) (length v) (outer u v).
  Proof. split; unfold outer; [apply map_length|]. apply Forall_map, Forall_forall. intros; apply map_length. Qed.

  Lemma identity_shape n : shape n n (identity n : rmat).
  Proof.
    split; unfold identity; [rewrite map_length, seq_length; auto|]. apply Forall_map, Forall_forall. intros.
    rewrite map_length, seq_length; auto.
  Qed.
  Lemma identity_ent n i j : (i < n)%nat -> (j < n)%nat -> ent (identity n) i j = if Nat.eqb i j then 1 else 0.
  Proof.
    intros Hi Hj. unfold ent, identity. rewrite (map_nth_lt _ _ _ 0%nat) by (rewrite seq_length; auto).
    rewrite (map_nth_lt _ _ _ 0%nat) by (rewrite seq_length; auto). rewrite !seq_nth by auto. reflexivity.
  Qed.
  Lemma mv_identity n v : length v = n -> mv (identity n) v = v.
  Proof.
    intros Hv. apply nth_ext0; [rewrite mv_len; destruct (identity_shape n); lia|].
    intros i Hi. rewrite mv_len in Hi. pose proof (identity_shape n) as (H1 & _). rewrite H1 in Hi.
    rewrite (mv_ent n n) by (auto; apply identity_shape).
    rewrite <- (sumn_delta n i (fun j => nth j v 0)) by auto. apply sumn_ext; intros j Hj.
    rewrite identity_ent by auto. reflexivity.
  Qed.

  Lemma mv_vadd r c A u v : shape r c A -> length u = c -> length v = c -> mv A (vadd u v) = vadd (mv A u) (mv A v).
  Proof.
    intros (Hl & HF) Hu Hv. clear Hl. unfold mv. induction HF as [|x A Hx HF IH]; [reflexivity|].
    unfold vadd in *; cbn [map map2]. f_equal; [|exact IH].
    change (Rdot x (vadd u v) = Rdot x u + Rdot x v). apply Rdot_vadd_r; congruence.
  Qed.
  Lemma mv_vsub r c A u v : shape r c A -> length u = c -> length v = c -> mv A (vsub u v) = vsub (mv A u) (mv A v).
  Proof.
    intros (Hl & HF) Hu Hv. clear Hl. unfold mv. induction HF as [|x A Hx HF IH]; [reflexivity|].
    unfold vsub in *; cbn [map map2]. f_equal; [|exact IH].
    change (Rdot x (vsub u v) = Rdot x u - Rdot x v). apply Rdot_vsub_r; congruence.
  Qed.
  Lemma mv_vsc A c v : mv A (vsc c v) = vsc c (mv A v).
  Proof. unfold mv, vsc. rewrite map_map. apply map_ext; intros r. apply Rdot_vsc_r. Qed.
  Lemma mv_mscale c A v : mv (mscale c A) v = vsc c (mv A v).
  Proof. unfold mv, mscale, vsc. rewrite !map_map. apply map_ext; intros r. apply Rdot_vsc_l. Qed.
  Lemma mscale_shape r c k A : shape r c A -> shape r c (mscale k A).
  Proof.
    intros (H1 & H2); split; unfold mscale; [rewrite map_length; auto|]. apply Forall_map. eapply Forall_impl; [|exact H2].
    intros a Ha; unfold vscale; rewrite map_length; auto.
  Qed.

  (** entrywise combinations *)
  Lemma map2_nth {X Y Z : Type} (f : X -> Y -> Z) (u : list X) (v : list Y) i a b c : length u = length v -> (i < length u)%nat ->
    nth i (map2 f u v) c = f (nth i u a) (nth i v b).
  Proof. revert v i; induction u as [|x u IH]; intros [|y v] [|i] Hl Hi; simpl in *; try lia; auto. apply IH; lia. Qed.
  Lemma map2m_shape r c (f : R -> R -> R) A B : shape r c A -> shape r c B -> shape r c (map2 (map2 f) A B).
  Proof.
    intros (H1 & H2) (H3 & H4). split; [rewrite map2_len; lia|].
    apply Forall_forall. intros x Hx. apply (In_nth _ _ []) in Hx as (i & Hi & <-). rewrite map2_len in Hi.
    rewrite (map2_nth _ _ _ _ [] []) by lia. rewrite map2_len.
    rewrite Forall_nth in H2, H4. rewrite H2, H4 by lia. lia.
  Qed.
  Lemma map2m_ent r c f A B i j : shape r c A -> shape r c B -> (i < r)%nat -> (j < c)%nat ->
    ent (map2 (map2 f) A B) i j = f (ent A i j) (ent B i j).
  Proof.
    intros HA HB Hi Hj. pose proof (shape_row _ _ _ _ HA Hi). pose proof (shape_row _ _ _ _ HB Hi).
    destruct HA as (H1 & H2), HB as (H3 & H4). unfold ent. rewrite (map2_nth _ _ _ _ [] []) by lia.
    apply map2_nth; lia.
  Qed.
  Lemma mv_map2_plus r c A B v : shape r c A -> shape r c B -> length v = c ->
    mv (map2 (map2 Rplus) A B) v = vadd (mv A v) (mv B v).
  Proof.
    intros HA HB Hv. pose proof (map2m_shape r c Rplus A B HA HB) as HM.
    assert (Hl : length (mv A v) = r /\ length (mv B v) = r) by (rewrite !mv_len; destruct HA, HB; auto).
    apply nth_ext0; [rewrite mv_len, (vadd_length _ _ r) by apply Hl; apply HM|].
    intros i Hi. rewrite mv_len in Hi. pose proof HM as (HM1 & _). rewrite HM1 in Hi.
    rewrite nth_vadd by lia. rewrite !(mv_ent r c) by auto. rewrite <- sumn_plus. apply sumn_ext; intros j Hj.
    rewrite (map2m_ent r c) by auto. ring.
  Qed.

  (** matrices with the same shape and entries are equal *)
  Lemma ent_ext r c A B : shape r c A -> shape r c B -> (forall i j, (i < r)%nat -> (j < c)%nat -> ent A i j = ent B i j) -> A = B.
  Proof.
    intros HA HB H. pose proof HA as (H1 & _). pose proof HB as (H2 & _).
    apply (nth_ext _ _ [] []); [congruence|]. intros i Hi.
    assert (Hi' : (i < r)%nat) by lia.
    apply nth_ext0; [rewrite (shape_row r c A), (shape_row r c B) by auto; auto|].
    intros j Hj. rewrite (shape_row r c A) in Hj by auto. apply H; auto.
  Qed.
  (** a matrix is determined by its action *)
  Lemma mv_ext r c A B : shape r c A -> shape r c B -> (forall v, length v = c -> mv A v = mv B v) -> A = B.
  Proof.
    intros HA HB H. apply (ent_ext r c); auto. intros i j Hi Hj.
    set (u := map (fun k => if Nat.eqb j k then 1 else 0) (seq 0 c) : rvec).
    assert (Hu : length u = c) by (unfold u; rewrite map_length, seq_length; auto).
    assert (Hk : forall M, shape r c M -> nth i (mv M u) 0 = ent M i j).
    { intros M HM. rewrite (mv_ent r c) by auto. rewrite <- (sumn_delta c j (fun l => ent M i l)) by auto.
      apply sumn_ext; intros l Hl. unfold u. rewrite (map_nth_lt _ _ _ 0%nat) by (rewrite seq_length; auto).
      rewrite seq_nth by auto. simpl. ring. }
    rewrite <- (Hk A HA), <- (Hk B HB), (H u Hu). reflexivity.
  Qed.
  Lemma zeros_len k : length (zeros k : rvec) = k.
  Proof. apply repeat_length. Qed.
End RM.
