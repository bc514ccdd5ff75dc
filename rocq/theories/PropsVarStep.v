(** C84: when the variable step-size classes stay stable: noise-free data, exact real arithmetic. *)
From Coq Require Import Reals Lra Psatz.
From Verif Require Import Py Num Numpy Filters Registry Spec StructProofs RunProofs Reach RVec RFilter Steps RMat PropsRegistry PropsAlgebra PropsStability PropsNoise PropsAP PropsAPConverge PropsRecursion.
Open Scope R_scope.

(** ** Vectors as functions *)
Lemma dotn_comm n a b : dotn n a b = dotn n b a.
Proof. apply sumn_ext. intros; ring. Qed.
Lemma dotn_add_l n a b c : dotn n (fun i => a i + b i) c = dotn n a c + dotn n b c.
Proof. unfold dotn. rewrite <- sumn_plus. apply sumn_ext. intros; ring. Qed.
Lemma dotn_sc_l n t a c : dotn n (fun i => t * a i) c = t * dotn n a c.
Proof. unfold dotn. rewrite <- sumn_scal. apply sumn_ext. intros; ring. Qed.
Lemma dotn_add_r n a b c : dotn n c (fun i => a i + b i) = dotn n c a + dotn n c b.
Proof. rewrite dotn_comm, dotn_add_l, !(dotn_comm n c). reflexivity. Qed.
Lemma dotn_sc_r n t a c : dotn n c (fun i => t * a i) = t * dotn n c a.
Proof. rewrite dotn_comm, dotn_sc_l, (dotn_comm n c). reflexivity. Qed.
Lemma dotn_sq n a : 0 <= dotn n a a.
Proof. apply sumn_nonneg. intros. apply Rle_0_sqr. Qed.
Lemma dotn_CS n a b : (dotn n a b) ^ 2 <= dotn n a a * dotn n b b.
Proof.
  set (A := dotn n a a). set (B := dotn n b b). set (C := dotn n a b).
  assert (HB : 0 <= B) by apply dotn_sq. assert (HA : 0 <= A) by apply dotn_sq.
  assert (H : forall s t, 0 <= s * s * A + 2 * (s * t) * C + t * t * B).
  { intros s t. pose proof (dotn_sq n (fun i => s * a i + t * b i)) as H.
    rewrite dotn_add_l, !dotn_add_r, !dotn_sc_l, !dotn_sc_r in H. rewrite (dotn_comm n b a) in H. fold A B C in H. lra. }
  destruct (Req_dec B 0) as [E|E].
  - rewrite E. pose proof (H 1 (- C * (A + 1))) as H1. rewrite E in H1.
    assert (HC : 0 <= C * C) by apply Rle_0_sqr.
    assert (C * C * (2 * A + 2) <= A) by lra.
    destruct (Req_dec (C * C) 0) as [EC|EC]; [lra|]. assert (HCn : C <> 0) by (intros Hz; apply EC; rewrite Hz; ring).
    pose proof (H 1 (- C / (C * C) * (A + 1))) as K2. rewrite E in K2.
    replace (2 * (1 * (- C / (C * C) * (A + 1))) * C) with (- 2 * (A + 1)) in K2 by (field; exact HCn). lra.
  - pose proof (H B (- C)) as H1. assert (0 < B) by lra.
    assert (0 <= B * (A * B - C ^ 2)) by (replace (B * (A * B - C ^ 2)) with (B * B * A + 2 * (B * - C) * C + - C * - C * B) by ring; exact H1).
    apply Rmult_le_reg_l with B; lra.
Qed.
Lemma dotn_abs n a b M : dotn n a a <= M -> dotn n b b <= M -> Rabs (dotn n a b) <= M.
Proof.
  intros Ha Hb. pose proof (dotn_CS n a b) as CS. pose proof (dotn_sq n a). pose proof (dotn_sq n b).
  assert (HM : dotn n a a * dotn n b b <= M * M) by (apply Rmult_le_compat; lra).
  rewrite <- (Rabs_pos_eq M) by lra. apply Rsqr_le_abs_0. unfold Rsqr. lra.
Qed.

Lemma abs_between a b : Rabs a <= b -> - b <= a <= b.
Proof. unfold Rabs. destruct (Rcase_abs a); lra. Qed.

(** ** The closed loop: the step size moves with the errors, the errors shrink with the step size *)
Lemma closed_loop (N : nat) (V E m : nat -> R) (X2 g del C : R) :
  0 <= X2 -> 0 < g -> g * X2 <= 1 -> 0 <= C -> 0 <= del -> C * V 0%nat <= del * g ->
  (forall k, (k <= N)%nat -> 0 <= V k) ->
  (forall k, (k < N)%nat -> 0 <= E k <= X2 * V k) ->
  (forall k, (k < N)%nat -> (forall j, (j <= k)%nat -> Rabs (m j - m 0%nat) <= del) -> Rabs (m (S k) - m 0%nat) <= C * sumn (S k) E) ->
  (forall k, (k < N)%nat -> Rabs (m (S k) - m 0%nat) <= del -> V (S k) <= V k - g * E k) ->
  forall k, (k <= N)%nat -> (forall j, (j <= k)%nat -> Rabs (m j - m 0%nat) <= del) /\ V k + g * sumn k E <= V 0%nat.
Proof.
  intros HX Hg HgX HC Hdel Hcond HV HE Hdrift Hstep.
  induction k as [|k IH]; intros Hk.
  - split; [|cbn [sumn]; lra]. intros j Hj. replace j with 0%nat by lia. rewrite Rminus_diag_eq by reflexivity. rewrite Rabs_R0. exact Hdel.
  - destruct (IH ltac:(lia)) as (H1 & H2). pose proof (HE k ltac:(lia)) as (E0 & E1). pose proof (HV k ltac:(lia)) as V0.
    assert (HS : g * sumn (S k) E <= V 0%nat).
    { cbn [sumn]. assert (g * E k <= V k).
      { apply Rle_trans with (g * (X2 * V k)); [apply Rmult_le_compat_l; lra|]. rewrite <- Rmult_assoc.
        rewrite <- (Rmult_1_l (V k)) at 2. apply Rmult_le_compat_r; lra. }
      lra. }
    pose proof (Hdrift k ltac:(lia) H1) as D.
    assert (HD : Rabs (m (S k) - m 0%nat) <= del).
    { apply Rle_trans with (1 := D). apply Rmult_le_reg_r with g; [exact Hg|]. apply Rle_trans with (2 := Hcond).
      replace (C * sumn (S k) E * g) with (C * (g * sumn (S k) E)) by ring. apply Rmult_le_compat_l; assumption. }
    split.
    + intros j Hj. destruct (Nat.eq_dec j (S k)) as [->|Hne]; [exact HD|apply H1; lia].
    + pose proof (Hstep k ltac:(lia) HD). cbn [sumn]. lra.
Qed.

Section Seq.
  Variables (n N : nat) (x : nat -> nat -> R) (e : nat -> R) (W : nat -> nat -> R) (ws : nat -> R) (X2 : R).
  Let v k i := W k i - ws i.
  Let V k := dotn n (v k) (v k).
  Let E k := e k ^ 2.
  Hypothesis (HX : forall k, (k < N)%nat -> dotn n (x k) (x k) <= X2).
  Hypothesis (HX0 : 0 <= X2).
  Hypothesis (He : forall k, (k < N)%nat -> e k = - dotn n (v k) (x k)).

  Lemma err_bound k : (k < N)%nat -> 0 <= E k <= X2 * V k.
  Proof.
    intros Hk. split; [apply pow2_ge_0|]. unfold E. rewrite He by exact Hk.
    replace ((- dotn n (v k) (x k)) ^ 2) with (dotn n (v k) (x k) ^ 2) by ring.
    apply Rle_trans with (1 := dotn_CS n (v k) (x k)). fold (V k). rewrite Rmult_comm. apply Rmult_le_compat_r; [apply dotn_sq|apply HX; exact Hk].
  Qed.

  Lemma dist_step k g : (k < N)%nat -> (forall i, (i < n)%nat -> W (S k) i = W k i + g * e k * x k i) ->
    V (S k) = V k - g * (2 - g * dotn n (x k) (x k)) * E k.
  Proof.
    intros Hk HW. unfold V at 1.
    rewrite (dotn_eq n (v (S k)) (v (S k)) (fun i => v k i + g * e k * x k i) (fun i => v k i + g * e k * x k i)) by (intros i Hi; unfold v; rewrite HW by exact Hi; ring).
    rewrite dotn_add_l, !dotn_add_r, !dotn_sc_l, !dotn_sc_r, (dotn_comm n (x k) (v k)). fold (V k). unfold E.
    assert (H : dotn n (v k) (x k) = - e k) by (rewrite He by exact Hk; ring). rewrite H. ring.
  Qed.

  Lemma dist_shrinks k g lo hi : (k < N)%nat -> (forall i, (i < n)%nat -> W (S k) i = W k i + g * e k * x k i) ->
    0 < lo -> lo <= g <= hi -> hi * X2 < 2 -> V (S k) <= V k - lo * (2 - hi * X2) * E k.
  Proof.
    intros Hk HW Hlo Hg Hhi. rewrite (dist_step k g Hk HW). pose proof (HX k Hk) as Hx. pose proof (dotn_sq n (x k)) as Hx0.
    assert (H : g * dotn n (x k) (x k) <= hi * X2) by (apply Rmult_le_compat; lra).
    assert (H1 : lo * (2 - hi * X2) <= g * (2 - g * dotn n (x k) (x k))) by (apply Rmult_le_compat; lra).
    pose proof (pow2_ge_0 (e k)) as HE. fold (E k) in HE. pose proof (Rmult_le_compat_r (E k) _ _ HE H1). lra.
  Qed.

  Lemma gam_X2 lo hi : 0 < lo -> lo <= hi -> hi * X2 < 2 -> lo * (2 - hi * X2) * X2 <= 1.
  Proof.
    clear -HX0. intros Hlo Hh Hhi. assert (lo * X2 <= hi * X2) by (apply Rmult_le_compat_r; lra).
    assert (0 <= lo * X2) by (apply Rmult_le_pos; lra). set (a := lo * X2) in *.
    replace (lo * (2 - hi * X2) * X2) with (a * (2 - hi * X2)) by (unfold a; ring).
    apply Rle_trans with (a * (2 - a)); [apply Rmult_le_compat_l; lra|]. pose proof (Rle_0_sqr (1 - a)) as H1. unfold Rsqr in H1. lra.
  Qed.

  Definition vb k := vbefore x k.
  Lemma vb_bound k : (k <= N)%nat -> dotn n (vb k) (vb k) <= X2.
  Proof.
    intros Hk. destruct k as [|k]; [|apply HX; lia]. unfold dotn, vb; cbn [vbefore].
    rewrite (sumn_ext n _ (fun _ => 0)) by (intros; ring). rewrite sumn_0. exact HX0.
  Qed.
  Lemma ebefore_sq k : before e (S k) ^ 2 = E k.
  Proof. reflexivity. Qed.

  Lemma young a b : Rabs (a * b) <= (a ^ 2 + b ^ 2) / 2.
  Proof. clear. rewrite Rabs_mult. pose proof (Rle_0_sqr (Rabs a - Rabs b)) as H. unfold Rsqr in H. pose proof (pow2_abs a). pose proof (pow2_abs b). lra. Qed.

  (** a step size (or regularisation) that moves by at most c |e k e (k-1)| per sample *)
  Lemma drift_pairs (m : nat -> R) c k : (k < N)%nat -> 0 <= c ->
    (forall j, (j <= k)%nat -> Rabs (m (S j) - m j) <= c * Rabs (e j * before e j)) ->
    Rabs (m (S k) - m 0%nat) <= c * sumn (S k) E.
  Proof.
    clear He HX. intros Hk Hc Hm.
    assert (H : forall j, (j <= k)%nat -> Rabs (m (S j) - m 0%nat) + c * (E j / 2) <= c * sumn (S j) E).
    { induction j as [|j IH]; intros Hj.
      - specialize (Hm 0%nat Hj). cbn [before] in Hm. rewrite Rmult_0_r, Rabs_R0, Rmult_0_r in Hm. cbn [sumn].
        assert (0 <= c * E 0%nat) by (apply Rmult_le_pos; [exact Hc|apply pow2_ge_0]). lra.
      - specialize (IH ltac:(lia)). specialize (Hm (S j) Hj). cbn [before] in Hm.
        pose proof (Rmult_le_compat_l c _ _ Hc (young (e (S j)) (e j))) as HY. fold (E (S j)) in HY. fold (E j) in HY.
        pose proof (Rabs_triang (m (S (S j)) - m (S j)) (m (S j) - m 0%nat)) as HT.
        replace (m (S (S j)) - m (S j) + (m (S j) - m 0%nat)) with (m (S (S j)) - m 0%nat) in HT by ring.
        change (sumn (S (S j)) E) with (sumn (S j) E + E (S j)). lra. }
    specialize (H k (le_n k)). assert (0 <= c * (E k / 2)); [|lra]. apply Rmult_le_pos; [exact Hc|]. pose proof (pow2_ge_0 (e k)). unfold E. lra.
  Qed.

  Definition stable (m : nat -> R) (del g : R) : Prop :=
    (forall k, (k <= N)%nat -> Rabs (m k - m 0%nat) <= del) /\ (forall k, (k < N)%nat -> V (S k) <= V k) /\ V N + g * sumn N E <= V 0%nat.

  Lemma loop_LMS (m : nat -> R) del C :
    (forall k i, (k < N)%nat -> (i < n)%nat -> W (S k) i = W k i + m (S k) * e k * x k i) ->
    0 < del < m 0%nat -> (m 0%nat + del) * X2 < 2 -> 0 <= C ->
    let g := (m 0%nat - del) * (2 - (m 0%nat + del) * X2) in
    C * V 0%nat <= del * g ->
    (forall k, (k < N)%nat -> (forall j, (j <= k)%nat -> Rabs (m j - m 0%nat) <= del) -> Rabs (m (S k) - m 0%nat) <= C * sumn (S k) E) ->
    stable m del g.
  Proof.
    intros HW Hdel Hhi HC g Hcond Hdrift.
    assert (Hg : 0 < g) by (apply Rmult_lt_0_compat; lra).
    assert (Hs : forall k, (k < N)%nat -> Rabs (m (S k) - m 0%nat) <= del -> V (S k) <= V k - g * E k).
    { intros k Hk H. apply abs_between in H. apply (dist_shrinks k (m (S k))); [exact Hk|auto|lra|lra|exact Hhi]. }
    assert (HgX : g * X2 <= 1) by (apply gam_X2; lra).
    pose proof (closed_loop N V E m X2 g del C HX0 Hg HgX HC ltac:(lra) Hcond
      (fun k _ => dotn_sq n (v k)) err_bound Hdrift Hs) as H.
    split; [|split].
    - apply (H N (le_n N)).
    - intros k Hk. destruct (H (S k) Hk) as (H1 & _). pose proof (Hs k Hk (H1 (S k) (le_n _))).
      assert (0 <= g * E k) by (apply Rmult_le_pos; [lra|apply pow2_ge_0]). lra.
    - apply (H N (le_n N)).
  Qed.

  Lemma seq_Mathews (m : nat -> R) ro del :
    (forall k, (k < N)%nat -> m (S k) = m k + ro * e k * before e k * dotn n (vbefore x k) (x k)) ->
    (forall k i, (k < N)%nat -> (i < n)%nat -> W (S k) i = W k i + m (S k) * e k * x k i) ->
    0 < del < m 0%nat -> (m 0%nat + del) * X2 < 2 ->
    let g := (m 0%nat - del) * (2 - (m 0%nat + del) * X2) in
    Rabs ro * X2 * V 0%nat <= del * g -> stable m del g.
  Proof.
    intros Hm HW Hdel Hhi g Hcond. apply (loop_LMS m del (Rabs ro * X2)); auto.
    { apply Rmult_le_pos; [apply Rabs_pos|exact HX0]. }
    intros k Hk _. apply drift_pairs; [exact Hk|apply Rmult_le_pos; [apply Rabs_pos|exact HX0]|].
    intros j Hj. rewrite Hm by lia.
    replace (m j + ro * e j * before e j * dotn n (vbefore x j) (x j) - m j) with (ro * (dotn n (vbefore x j) (x j) * (e j * before e j))) by ring.
    rewrite Rabs_mult, (Rabs_mult (dotn n (vbefore x j) (x j))), Rmult_assoc. apply Rmult_le_compat_l; [apply Rabs_pos|].
    apply Rmult_le_compat_r; [apply Rabs_pos|]. apply dotn_abs; [apply (vb_bound j); lia|apply HX; lia].
  Qed.

  Lemma seq_Ang (m : nat -> R) (phi : nat -> nat -> R) ro a del :
    (forall i, (i < n)%nat -> phi 0%nat i = 0) ->
    (forall k i, (k < N)%nat -> (i < n)%nat -> phi (S k) i = a * phi k i + before e k * vbefore x k i) ->
    (forall k, (k < N)%nat -> m (S k) = m k + ro * e k * dotn n (vbefore x k) (phi (S k))) ->
    (forall k i, (k < N)%nat -> (i < n)%nat -> W (S k) i = W k i + m (S k) * e k * x k i) ->
    Rabs a < 1 ->
    0 < del < m 0%nat -> (m 0%nat + del) * X2 < 2 ->
    let g := (m 0%nat - del) * (2 - (m 0%nat + del) * X2) in
    Rabs ro * X2 / (1 - Rabs a) * V 0%nat <= del * g -> stable m del g.
  Proof.
    intros Hp0 Hp Hm HW Ha Hdel Hhi g Hcond.
    set (al := Rabs a) in *. assert (Hal : 0 <= al) by apply Rabs_pos.
    assert (Hro : 0 <= Rabs ro * X2) by (apply Rmult_le_pos; [apply Rabs_pos|exact HX0]).
    apply (loop_LMS m del (Rabs ro * X2 / (1 - al))); auto.
    { apply Rmult_le_pos; [exact Hro|]. left; apply Rinv_0_lt_compat; lra. }
    (* G k bounds |u . phi k| / X2 *)
    set (G := fix G k := match k with O => 0 | S j => al * G j + Rabs (before e j) end).
    assert (HG0 : forall k, 0 <= G k).
    { induction k as [|k IH]; [cbn [G]; lra|]. cbn [G]. pose proof (Rabs_pos (before e k)). pose proof (Rmult_le_pos _ _ Hal IH). lra. }
    assert (HG : forall k, (k <= N)%nat -> forall u, dotn n u u <= X2 -> Rabs (dotn n u (phi k)) <= X2 * G k).
    { induction k as [|k IH]; intros Hk u Hu.
      - rewrite (dotn_eq n u (phi 0%nat) u (fun _ => 0)) by auto. unfold dotn. rewrite (sumn_ext n _ (fun _ => 0)) by (intros; ring).
        rewrite sumn_0, Rabs_R0. cbn [G]. lra.
      - rewrite (dotn_eq n u (phi (S k)) u (fun i => a * phi k i + before e k * vbefore x k i)) by (auto; intros; apply Hp; auto; lia).
        rewrite dotn_add_r, !dotn_sc_r. cbn [G].
        apply Rle_trans with (1 := Rabs_triang _ _). rewrite !Rabs_mult. fold al.
        assert (H1 : al * Rabs (dotn n u (phi k)) <= al * (X2 * G k)) by (apply Rmult_le_compat_l; [exact Hal|apply IH; [lia|exact Hu]]).
        assert (H2 : Rabs (before e k) * Rabs (dotn n u (vbefore x k)) <= Rabs (before e k) * X2).
        { apply Rmult_le_compat_l; [apply Rabs_pos|]. apply dotn_abs; [exact Hu|apply (vb_bound k); lia]. }
        lra. }
    intros k Hk _.
    assert (H : forall j, (j <= k)%nat -> Rabs (m (S j) - m 0%nat) + Rabs ro * X2 * (G (S (S j)) ^ 2 / 2) <= Rabs ro * X2 * (sumn (S j) E / (1 - al))).
    { assert (Hstep : forall gg ee, 0 <= gg -> 0 <= ee -> ee * gg + (al * gg + ee) ^ 2 / 2 <= gg ^ 2 / 2 + ee ^ 2 / (1 - al)).
      { intros gg ee Hgg Hee. apply Rmult_le_reg_r with (2 * (1 - al)); [lra|].
        replace ((gg ^ 2 / 2 + ee ^ 2 / (1 - al)) * (2 * (1 - al))) with (gg ^ 2 * (1 - al) + 2 * ee ^ 2) by (field; lra).
        replace ((ee * gg + (al * gg + ee) ^ 2 / 2) * (2 * (1 - al))) with ((2 * (ee * gg) + (al * gg + ee) ^ 2) * (1 - al)) by field.
        assert (0 <= (1 + al) * (ee - (1 - al) * gg) ^ 2) by (apply Rmult_le_pos; [lra|apply pow2_ge_0]).
        match goal with |- ?l <= ?r => replace r with (l + (1 + al) * (ee - (1 - al) * gg) ^ 2) by ring end. lra. }
      assert (HD : forall j, (j < N)%nat -> Rabs (m (S j) - m j) <= Rabs ro * X2 * (Rabs (e j) * G (S j))).
      { intros j Hj. rewrite Hm by exact Hj. replace (m j + ro * e j * dotn n (vbefore x j) (phi (S j)) - m j) with (ro * (e j * dotn n (vbefore x j) (phi (S j)))) by ring.
        rewrite !Rabs_mult. replace (Rabs ro * X2 * (Rabs (e j) * G (S j))) with (Rabs ro * (Rabs (e j) * (X2 * G (S j)))) by ring.
        apply Rmult_le_compat_l; [apply Rabs_pos|]. apply Rmult_le_compat_l; [apply Rabs_pos|]. apply HG; [lia|apply (vb_bound j); lia]. }
      induction j as [|j IH]; intros Hj.
      - pose proof (HD 0%nat ltac:(lia)) as D. cbn [G before] in D |- *. rewrite Rabs_R0 in D |- *. cbn [sumn].
        pose proof (Hstep 0 (Rabs (e 0%nat)) (Rle_refl 0) (Rabs_pos _)) as H1. rewrite pow2_abs in H1. fold (E 0%nat) in H1.
        pose proof (Rmult_le_compat_l _ _ _ Hro H1) as H2.
        replace (0 + E 0%nat) with (E 0%nat) by ring. replace (al * (al * 0 + 0) + Rabs (e 0%nat)) with (al * 0 + Rabs (e 0%nat)) by ring. lra.
      - specialize (IH ltac:(lia)). pose proof (HD (S j) ltac:(lia)) as D.
        pose proof (Hstep (G (S (S j))) (Rabs (e (S j))) (HG0 _) (Rabs_pos _)) as H1. rewrite pow2_abs in H1. fold (E (S j)) in H1.
        pose proof (Rmult_le_compat_l _ _ _ Hro H1) as H2.
        change (G (S (S (S j)))) with (al * G (S (S j)) + Rabs (e (S j))).
        pose proof (Rabs_triang (m (S (S j)) - m (S j)) (m (S j) - m 0%nat)) as HT.
        replace (m (S (S j)) - m (S j) + (m (S j) - m 0%nat)) with (m (S (S j)) - m 0%nat) in HT by ring.
        change (sumn (S (S j)) E) with (sumn (S j) E + E (S j)).
        replace (Rabs ro * X2 * ((sumn (S j) E + E (S j)) / (1 - al))) with (Rabs ro * X2 * (sumn (S j) E / (1 - al)) + Rabs ro * X2 * (E (S j) / (1 - al))) by (field; lra).
        lra. }
    specialize (H k (le_n k)).
    assert (0 <= Rabs ro * X2 * (G (S (S k)) ^ 2 / 2)).
    { apply Rmult_le_pos; [exact Hro|]. pose proof (pow2_ge_0 (G (S (S k)))). lra. }
    replace (Rabs ro * X2 / (1 - al) * sumn (S k) E) with (Rabs ro * X2 * (sumn (S k) E / (1 - al))) by (field; lra). lra.
  Qed.

  Lemma seq_Benveniste (m : nat -> R) (phi : nat -> nat -> R) ro del :
    (forall i, (i < n)%nat -> phi 0%nat i = 0) ->
    (forall k i, (k < N)%nat -> (i < n)%nat ->
       phi (S k) i = phi k i - m k * vbefore x k i * dotn n (vbefore x k) (phi k) + before e k * vbefore x k i) ->
    (forall k, (k < N)%nat -> m (S k) = m k + ro * e k * dotn n (vbefore x k) (phi (S k))) ->
    (forall k i, (k < N)%nat -> (i < n)%nat -> W (S k) i = W k i + m (S k) * e k * x k i) ->
    0 < del < m 0%nat -> (m 0%nat + del) * X2 < 2 ->
    let g := (m 0%nat - del) * (2 - (m 0%nat + del) * X2) in
    7 * Rabs ro * V 0%nat <= 2 * del * (g * g) -> stable m del g.
  Proof.
    intros Hp0 Hp Hm HW Hdel Hhi g Hcond.
    assert (Hg : 0 < g) by (apply Rmult_lt_0_compat; lra).
    assert (HgX : g * X2 <= 1) by (apply gam_X2; lra).
    assert (HiX : X2 <= / g). { apply Rmult_le_reg_l with g; [exact Hg|]. rewrite Rinv_r by lra. exact HgX. }
    pose proof (Rinv_0_lt_compat g Hg) as Hig.
    pose proof (Rabs_pos ro) as Hro.
    apply (loop_LMS m del (Rabs ro * (7 / 2 * / g))); auto.
    { apply Rmult_le_pos; [exact Hro|lra]. }
    { replace (Rabs ro * (7 / 2 * / g) * V 0%nat) with (7 * Rabs ro * V 0%nat / 2 / g) by (field; lra).
      apply Rmult_le_reg_r with g; [exact Hg|]. replace (7 * Rabs ro * V 0%nat / 2 / g * g) with (7 * Rabs ro * V 0%nat / 2) by (field; lra). fold g. lra. }
    intros k Hk HR.
    set (F j := dotn n (phi j) (phi j)). set (c := / g + X2).
    set (Eb j := before e j ^ 2).
    assert (H : forall j, (j <= S k)%nat -> exists D, 0 <= D /\ Rabs (m j - m 0%nat) <= Rabs ro * D /\ D + F j / 2 + c * Eb j <= (2 * / g + 3 / 2 * X2) * sumn j E).
    { induction j as [|j IH]; intros Hj.
      - exists 0. split; [lra|]. split; [rewrite Rminus_diag_eq by reflexivity; rewrite Rabs_R0; lra|].
        unfold F, Eb. rewrite (dotn_eq n (phi 0%nat) (phi 0%nat) (fun _ => 0) (fun _ => 0)) by auto. unfold dotn. rewrite (sumn_ext n _ (fun _ => 0)) by (intros; ring).
        rewrite sumn_0. cbn [before sumn]. lra.
      - destruct (IH ltac:(lia)) as (D & HD0 & HD1 & HD2).
        specialize (HR j ltac:(lia)). apply abs_between in HR.
        set (xb := vbefore x j) in *. set (eb := before e j) in *. set (p := dotn n xb (phi j)).
        pose proof (vb_bound j ltac:(lia)) as Hxb. unfold vb in Hxb. fold xb in Hxb. pose proof (dotn_sq n xb) as Hxb0. set (s := dotn n xb xb) in *.
        assert (Hms : 0 <= m j * s <= (m 0%nat + del) * X2).
        { split; [apply Rmult_le_pos; lra|apply Rmult_le_compat; lra]. }
        assert (Hphi : forall i, (i < n)%nat -> phi (S j) i = phi j i + (eb - m j * p) * xb i).
        { intros i Hi. rewrite Hp by (auto; lia). fold xb eb p. ring. }
        assert (HF : F (S j) = F j + 2 * (eb - m j * p) * p + (eb - m j * p) ^ 2 * s).
        { unfold F. rewrite (dotn_eq n (phi (S j)) (phi (S j)) _ _ Hphi Hphi). rewrite dotn_add_l, !dotn_add_r, !dotn_sc_l, !dotn_sc_r.
          rewrite (dotn_comm n (phi j) xb). fold p s. ring. }
        assert (Hq : dotn n xb (phi (S j)) = (1 - m j * s) * p + eb * s).
        { rewrite (dotn_eq n xb (phi (S j)) xb _ (fun i _ => eq_refl) Hphi). rewrite dotn_add_r, dotn_sc_r. fold p s. ring. }
        set (ej := e j) in *.
        exists (D + Rabs ej * Rabs p + X2 * (Rabs ej * Rabs eb)).
        assert (Hap : 0 <= Rabs p) by apply Rabs_pos. assert (Hae : 0 <= Rabs ej) by apply Rabs_pos. assert (Hab : 0 <= Rabs eb) by apply Rabs_pos.
        pose proof (Rmult_le_pos _ _ Hae Hap) as Hep. pose proof (Rmult_le_pos _ _ Hae Hab) as Heb. pose proof (Rmult_le_pos _ _ HX0 Heb) as HXe.
        assert (H1ms : Rabs (1 - m j * s) <= 1) by (apply Rabs_le; lra).
        assert (Hqb : Rabs (dotn n xb (phi (S j))) <= Rabs p + X2 * Rabs eb).
        { rewrite Hq. apply Rle_trans with (1 := Rabs_triang _ _). rewrite !Rabs_mult. rewrite (Rabs_pos_eq s Hxb0).
          pose proof (Rmult_le_compat_r _ _ _ Hap H1ms). pose proof (Rmult_le_compat_l _ _ _ Hab Hxb). lra. }
        split; [lra|]. split.
        + rewrite Hm by lia. fold xb ej.
          replace (m j + ro * ej * dotn n xb (phi (S j)) - m 0%nat) with ((m j - m 0%nat) + ro * (ej * dotn n xb (phi (S j)))) by ring.
          apply Rle_trans with (1 := Rabs_triang _ _). rewrite !Rabs_mult.
          pose proof (Rmult_le_compat_l _ _ _ Hae Hqb) as H1. pose proof (Rmult_le_compat_l _ _ _ Hro H1) as H2. lra.
        + assert (HFb : F (S j) <= F j - g * p ^ 2 + 2 * (Rabs eb * Rabs p) + X2 * eb ^ 2).
          { rewrite HF.
            replace (F j + 2 * (eb - m j * p) * p + (eb - m j * p) ^ 2 * s) with
              (F j - m j * (2 - m j * s) * p ^ 2 + 2 * ((1 - m j * s) * (eb * p)) + s * eb ^ 2) by ring.
            assert (H1 : g * p ^ 2 <= m j * (2 - m j * s) * p ^ 2).
            { apply Rmult_le_compat_r; [apply pow2_ge_0|]. unfold g. apply Rmult_le_compat; lra. }
            assert (H2 : (1 - m j * s) * (eb * p) <= Rabs eb * Rabs p).
            { apply Rle_trans with (1 := Rle_abs _). rewrite !Rabs_mult. pose proof (Rmult_le_compat_r (Rabs eb * Rabs p) _ _ (Rmult_le_pos _ _ Hab Hap) H1ms). lra. }
            assert (H3 : s * eb ^ 2 <= X2 * eb ^ 2) by (apply Rmult_le_compat_r; [apply pow2_ge_0|lra]).
            lra. }
          unfold Eb at 1. change (before e (S j)) with ej. unfold Eb in HD2. fold eb in HD2. cbn [sumn]. change (E j) with (ej ^ 2).
          rewrite <- (pow2_abs ej), <- (pow2_abs eb) in *. rewrite <- (pow2_abs p) in HFb.
          set (A := Rabs ej) in *. set (B := Rabs eb) in *. set (Pp := Rabs p) in *.
          (* (A + B) Pp - g Pp^2 / 2 <= (A + B)^2 / (2 g) <= (A^2 + B^2) / g *)
          assert (H1 : (A + B) * Pp - g * Pp ^ 2 / 2 <= / g * (A ^ 2 + B ^ 2)).
          { apply Rmult_le_reg_l with (2 * g); [lra|].
            replace (2 * g * (/ g * (A ^ 2 + B ^ 2))) with (2 * (A ^ 2 + B ^ 2)) by (field; lra).
            pose proof (pow2_ge_0 (A + B - g * Pp)). pose proof (pow2_ge_0 (A - B)). lra. }
          assert (H2 : X2 * (A * B) <= X2 * ((A ^ 2 + B ^ 2) / 2)).
          { apply Rmult_le_compat_l; [exact HX0|]. pose proof (pow2_ge_0 (A - B)). lra. }
          unfold c in *. lra. }
    destruct (H (S k) (le_n _)) as (D & HD0 & HD1 & HD2).
    assert (HF : 0 <= F (S k)) by apply dotn_sq.
    assert (HE : 0 <= c * Eb (S k)) by (apply Rmult_le_pos; [unfold c; lra|apply pow2_ge_0]).
    assert (HS : 0 <= sumn (S k) E) by (apply sumn_nonneg; intros; apply pow2_ge_0).
    apply Rle_trans with (1 := HD1). rewrite Rmult_assoc. apply Rmult_le_compat_l; [exact Hro|].
    apply Rle_trans with ((2 * / g + 3 / 2 * X2) * sumn (S k) E); [lra|]. apply Rmult_le_compat_r; [exact HS|lra].
  Qed.

  Lemma seq_GNGD (eps : nat -> R) mu ro del :
    (forall k, (k < N)%nat -> eps (S k) = eps k - ro * mu * (e k * before e k * dotn n (x k) (vbefore x k)
                                              / (dotn n (vbefore x k) (vbefore x k) + eps k) ^ 2)) ->
    (forall k i, (k < N)%nat -> (i < n)%nat -> W (S k) i = W k i + mu / (eps (S k) + dotn n (x k) (x k)) * e k * x k i) ->
    0 < mu < 2 -> 0 < del < eps 0%nat ->
    Rabs ro * X2 * V 0%nat * (eps 0%nat + del + X2) <= del * (eps 0%nat - del) ^ 2 * (2 - mu) ->
    stable eps del (mu * (2 - mu) / (eps 0%nat + del + X2)).
  Proof.
    intros Hp HW Hmu Hdel Hcond.
    set (lo := eps 0%nat - del) in *. set (hi := eps 0%nat + del + X2) in *. set (g := mu * (2 - mu) / hi).
    assert (Hlo : 0 < lo) by (unfold lo; lra). assert (Hhi : 0 < hi) by (unfold hi; lra).
    assert (Hmm : 0 < mu * (2 - mu)) by (apply Rmult_lt_0_compat; lra).
    assert (Hg : 0 < g) by (unfold g; apply Rmult_lt_0_compat; [exact Hmm|apply Rinv_0_lt_compat; exact Hhi]).
    assert (HgX : g * X2 <= 1).
    { unfold g. apply Rmult_le_reg_r with hi; [exact Hhi|]. replace (mu * (2 - mu) / hi * X2 * hi) with (mu * (2 - mu) * X2) by (field; lra).
      pose proof (Rle_0_sqr (1 - mu)) as H1. unfold Rsqr in H1. assert (mu * (2 - mu) <= 1) by lra.
      pose proof (Rmult_le_compat_r X2 _ _ HX0 H). unfold hi. lra. }
    set (C := Rabs ro * (mu * (X2 / lo ^ 2))).
    assert (Hlo2 : 0 < lo ^ 2) by (apply pow_lt; exact Hlo).
    assert (HXl : 0 <= mu * (X2 / lo ^ 2)).
    { apply Rmult_le_pos; [lra|]. apply Rmult_le_pos; [exact HX0|left; apply Rinv_0_lt_compat; exact Hlo2]. }
    assert (HC : 0 <= C) by (apply Rmult_le_pos; [apply Rabs_pos|exact HXl]).
    assert (Hc : C * V 0%nat <= del * g).
    { unfold C, g. apply Rmult_le_reg_r with (lo ^ 2 * hi); [apply Rmult_lt_0_compat; assumption|].
      replace (Rabs ro * (mu * (X2 / lo ^ 2)) * V 0%nat * (lo ^ 2 * hi)) with (mu * (Rabs ro * X2 * V 0%nat * hi)) by (field; lra).
      replace (del * (mu * (2 - mu) / hi) * (lo ^ 2 * hi)) with (mu * (del * lo ^ 2 * (2 - mu))) by (field; lra).
      apply Rmult_le_compat_l; lra. }
    assert (Hdrift : forall k, (k < N)%nat -> (forall j, (j <= k)%nat -> Rabs (eps j - eps 0%nat) <= del) -> Rabs (eps (S k) - eps 0%nat) <= C * sumn (S k) E).
    { intros k Hk HR. apply drift_pairs; [exact Hk|exact HC|]. intros j Hj. rewrite Hp by lia.
      specialize (HR j Hj). apply abs_between in HR.
      pose proof (vb_bound j ltac:(lia)) as Hxb. unfold vb in Hxb. pose proof (dotn_sq n (vbefore x j)) as Hxb0.
      set (s := dotn n (vbefore x j) (vbefore x j)) in *.
      assert (Hden : lo ^ 2 <= (s + eps j) ^ 2) by (apply pow_incr; unfold lo; lra).
      assert (Hd0 : 0 < (s + eps j) ^ 2) by lra.
      replace (eps j - ro * mu * (e j * before e j * dotn n (x j) (vbefore x j) / (s + eps j) ^ 2) - eps j)
        with (- (ro * (mu * (dotn n (x j) (vbefore x j) * / (s + eps j) ^ 2) * (e j * before e j)))) by (unfold Rdiv; ring).
      rewrite Rabs_Ropp, Rabs_mult. unfold C. rewrite (Rmult_assoc (Rabs ro)). apply Rmult_le_compat_l; [apply Rabs_pos|].
      rewrite Rabs_mult. apply Rmult_le_compat_r; [apply Rabs_pos|]. rewrite Rabs_mult, (Rabs_pos_eq mu) by lra.
      apply Rmult_le_compat_l; [lra|]. rewrite Rabs_mult, (Rabs_pos_eq (/ _)) by (left; apply Rinv_0_lt_compat; exact Hd0).
      apply Rmult_le_compat; [apply Rabs_pos|left; apply Rinv_0_lt_compat; exact Hd0|apply dotn_abs; [apply HX; lia|exact Hxb]|].
      apply Rinv_le_contravar; assumption. }
    assert (Hs : forall k, (k < N)%nat -> Rabs (eps (S k) - eps 0%nat) <= del -> V (S k) <= V k - g * E k).
    { intros k Hk H. apply abs_between in H. rewrite (dist_step k (mu / (eps (S k) + dotn n (x k) (x k))) Hk) by auto.
      pose proof (HX k Hk) as Hx. pose proof (dotn_sq n (x k)) as Hx0. set (s := dotn n (x k) (x k)) in *.
      assert (Hes : 0 < eps (S k) + s) by lra.
      assert (H1 : mu / (eps (S k) + s) * s <= mu).
      { apply Rmult_le_reg_r with (eps (S k) + s); [exact Hes|]. replace (mu / (eps (S k) + s) * s * (eps (S k) + s)) with (mu * s) by (field; lra).
        apply Rmult_le_compat_l; lra. }
      assert (H2 : mu / hi <= mu / (eps (S k) + s)).
      { apply Rmult_le_compat_l; [lra|]. apply Rinv_le_contravar; [exact Hes|unfold hi; lra]. }
      assert (H3 : g <= mu / (eps (S k) + s) * (2 - mu / (eps (S k) + s) * s)).
      { replace g with (mu / hi * (2 - mu)) by (unfold g; field; lra). apply Rmult_le_compat; try lra.
        apply Rmult_le_pos; [lra|left; apply Rinv_0_lt_compat; exact Hhi]. }
      pose proof (Rmult_le_compat_r (E k) _ _ (pow2_ge_0 (e k)) H3). lra. }
    pose proof (closed_loop N V E eps X2 g del C HX0 Hg HgX HC ltac:(lra) Hc (fun k _ => dotn_sq n (v k)) err_bound Hdrift Hs) as H.
    split; [|split].
    - apply (H N (le_n N)).
    - intros k Hk. destruct (H (S k) Hk) as (H1 & _). pose proof (Hs k Hk (H1 (S k) (le_n _))).
      assert (0 <= g * E k) by (apply Rmult_le_pos; [lra|apply pow2_ge_0]). lra.
    - apply (H N (le_n N)).
  Qed.
End Seq.

(** ** Specification *)
(** the weights never move away from ws, and what the squared errors sum to is paid by the distance to ws *)
Definition settles (ws : rvec) (N : nat) (e : rvec) (w : list rvec) (first final : rvec) (g : R) : Prop :=
  never_away ws w final /\ distsq final ws + g * total N (fun k => nth k e 0 ^ 2) <= distsq first ws.
(** the weights move along the inputs, with step size m k at sample k *)
Definition steps_by (n : nat) (x : list rvec) (e : rvec) (w : list rvec) (final : rvec) (m : nat -> R) : Prop :=
  forall k i, (k < length x)%nat -> (i < n)%nat ->
    nth i (wrow w final (S k)) 0 = nth i (wrow w final k) 0 + m k * nth k e 0 * nth i (nth k x []) 0.

Section S.
  Variable solve : list rvec -> list rvec -> option (list rvec).
  #[local] Hint Extern 0 (Num R) => exact (RNum solve) : typeclass_instances.
  Notation obj := (obj R).

  Lemma total_sumn N f : total N f = sumn N f.
  Proof. induction N as [|N IH]; [reflexivity|]. rewrite total_S, IH. reflexivity. Qed.

  (** from the sequences back to the run *)
  Section Run.
    Variables (rng : nat -> rvec) (c : kind) (kw : kwargs R) (n : nat) (o o' : obj) (d : rvec) (x : list rvec) (y e : rvec) (w : list rvec) (ws : rvec) (X2 : R).
    Hypotheses (Hrng : rng_ok rng) (Hkw : sane_kw kw) (Hn : kw_n kw = Some (Z.of_nat n)) (Ho : new_filter rng c kw = Ok o)
      (Hx : rows_of n x) (Hws : length ws = n) (Hnf : noise_free ws d x) (HX : forall k, (k < length x)%nat -> normsq (nth k x []) <= X2)
      (HR : run d x o = (o', Ok (y, e, w))).
    Let N := length x.
    Let X k i := nth i (nth k x []) 0. Let Er k := nth k e 0. Let W k i := nth i (wrow w (o_w o') k) 0. Let Ws i := nth i ws 0.

    Lemma br_wf : wf n o. Proof. exact (new_filter_wf rng c kw n o Hrng Hkw Hn Ho). Qed.
    Lemma br_lenx k : (k < N)%nat -> length (nth k x []) = n.
    Proof. intros Hk. apply nth_rows; auto. Qed.
    Lemma br_lenw : length w = N /\ forall k, (k <= N)%nat -> length (wrow w (o_w o') k) = n.
    Proof.
      destruct (rec_states solve n o o' d x y e w br_wf Hx HR) as (st & S0 & HS).
      destruct (run_lengths solve n o o' d x y e w br_wf Hx HR) as (_ & Hne & _ & _ & Hw & _). split; [exact Hw|].
      intros [|k] Hk.
      - destruct (HS 0%nat) as (H1 & _ & _ & <- & _); [destruct x; [congruence|cbn; lia]|apply H1].
      - destruct (HS k ltac:(lia)) as (H1 & _ & H3 & _ & <- & _ & _ & H8).
        assert (H2 : wf n (st (S k))).
        { destruct (adapt_ok n (st k) (nth k d 0) (nth k x []) H1 H8) as (s2 & r & E & H2 & _). rewrite E in H3. injection H3 as <- _. exact H2. }
        apply H2.
    Qed.
    Lemma br_X k : (k < N)%nat -> dotn n (X k) (X k) <= X2.
    Proof. intros Hk. pose proof (HX k Hk) as H. unfold normsq in H. rewrite (Rdot_sumn n (nth k x []) (nth k x [])) in H by (apply br_lenx; exact Hk). exact H. Qed.
    Lemma br_X0 : 0 <= X2.
    Proof.
      destruct (run_lengths solve n o o' d x y e w br_wf Hx HR) as (_ & Hne & _). apply Rle_trans with (normsq (nth 0 x [])); [apply normsq_nonneg|].
      apply HX. destruct x; [congruence|cbn; lia].
    Qed.
    Lemma br_V k : (k <= N)%nat -> distsq (wrow w (o_w o') k) ws = dotn n (fun i => W k i - Ws i) (fun i => W k i - Ws i).
    Proof.
      intros Hk. unfold distsq, normsq. assert (Hl : length (wrow w (o_w o') k) = n) by (apply br_lenw; exact Hk).
      rewrite (Rdot_sumn n) by (apply vsub_length; auto). apply sumn_ext. intros i Hi. rewrite nth_vsub by congruence. reflexivity.
    Qed.
    Lemma br_e : (forall k, (k < N)%nat -> Er k = nth k d 0 - nth k y 0) /\ (forall k, (k < N)%nat -> nth k y 0 = dotn n (W k) (X k)) ->
      forall k, (k < N)%nat -> Er k = - dotn n (fun i => W k i - Ws i) (X k).
    Proof.
      intros (H1 & H2) k Hk. rewrite H1, H2 by exact Hk. rewrite Hnf by exact Hk.
      rewrite (Rdot_sumn n ws (nth k x [])) by (auto; apply br_lenx; exact Hk). change (sumn n (fun i => nth i ws 0 * nth i (nth k x []) 0)) with (dotn n Ws (X k)).
      unfold dotn. rewrite <- sumn_minus.
      transitivity (sumn n (fun i => -1 * ((W k i - Ws i) * X k i))); [apply sumn_ext; intros; ring|]. rewrite sumn_scal. ring.
    Qed.
    Lemma br_settles m del g : stable n N Er W Ws m del g -> settles ws N e w (o_w o) (o_w o') g.
    Proof.
      intros (_ & H1 & H2). destruct br_lenw as (Hlw & _). split.
      - intros k Hk. rewrite Hlw in Hk. rewrite !br_V by lia. apply H1. exact Hk.
      - rewrite total_sumn.
        destruct (run_lengths solve n o o' d x y e w br_wf Hx HR) as (_ & Hne & _).
        assert (E0 : wrow w (o_w o') 0 = o_w o).
        { destruct (rec_states solve n o o' d x y e w br_wf Hx HR) as (st & S0 & HS). destruct (HS 0%nat) as (_ & _ & _ & H & _); [destruct x; [congruence|cbn; lia]|].
          rewrite <- H, S0. reflexivity. }
        assert (EN : wrow w (o_w o') N = o_w o').
        { unfold wrow. rewrite app_nth2 by lia. rewrite Hlw, Nat.sub_diag. reflexivity. }
        rewrite <- E0, <- EN at 1. rewrite !br_V by lia. exact H2.
    Qed.
    Lemma br_V0 : distsq (o_w o) ws = dotn n (fun i => W 0%nat i - Ws i) (fun i => W 0%nat i - Ws i).
    Proof.
      rewrite <- br_V by lia. f_equal. destruct (run_lengths solve n o o' d x y e w br_wf Hx HR) as (_ & Hne & _).
      destruct (rec_states solve n o o' d x y e w br_wf Hx HR) as (st & S0 & HS). destruct (HS 0%nat) as (_ & _ & _ & H & _); [destruct x; [congruence|cbn; lia]|].
      rewrite <- H, S0. reflexivity.
    Qed.
  End Run.

  (** *** VSLMS_Mathews: if the initial distance to the true weights is small enough for the step size to be unable to
      leave [mu - del, mu + del], the filter is stable for data of any length. *)
  Theorem C84_Mathews : forall rng (kw : kwargs R) n (o o' : obj) d x y e w ws X2 del,
    rng_ok rng -> sane_kw kw -> kw_n kw = Some (Z.of_nat n) -> new_filter rng KMathews kw = Ok o ->
    rows_of n x -> length ws = n -> noise_free ws d x -> (forall k, (k < length x)%nat -> normsq (nth k x []) <= X2) ->
    run d x o = (o', Ok (y, e, w)) ->
    let mu := par (kw_mu kw) 1 in let ro := par (kw_ro kw) (1 / 10) in
    let g := (mu - del) * (2 - (mu + del) * X2) in
    0 < del < mu -> (mu + del) * X2 < 2 ->
    Rabs ro * X2 * distsq (o_w o) ws <= del * g ->
    settles ws (length x) e w (o_w o) (o_w o') g /\
    exists m, steps_by n x e w (o_w o') m /\ forall k, (k < length x)%nat -> Rabs (m k - mu) <= del.
  Proof.
    intros rng kw n o o' d x y e w ws X2 del Hrng Hkw Hn Ho Hx Hws Hnf HX HR mu ro g Hdel Hhi Hcond.
    destruct (C65_run_follows_the_recursion solve rng KMathews kw n o o' d x y e w Hrng Hkw Hn Ho ltac:(discriminate) ltac:(discriminate) Hx HR) as (_ & HL & m & M0 & HM & HW).
    change (rate KMathews kw) with mu in M0. rewrite (br_V0 rng KMathews kw n o o' d x y e w ws X2 Hrng Hkw Hn Ho Hx Hws Hnf HX HR) in Hcond.
    pose proof (seq_Mathews n (length x) (fun k i => nth i (nth k x []) 0) (fun k => nth k e 0) (fun k i => nth i (wrow w (o_w o') k) 0) (fun i => nth i ws 0) X2
      (br_X n x X2 Hx HX) (br_X0 rng KMathews kw n o o' d x y e w ws X2 Hrng Hkw Hn Ho Hx Hws Hnf HX HR)
      (br_e n o' d x y e w ws Hx Hws Hnf HL) m ro del HM HW) as H.
    rewrite M0 in H. specialize (H Hdel Hhi Hcond). fold g in H. split.
    - exact (br_settles rng KMathews kw n o o' d x y e w ws X2 Hrng Hkw Hn Ho Hx Hws Hnf HX HR _ _ _ H).
    - exists (fun k => m (S k)). split; [exact HW|]. intros k Hk. destruct H as (H & _). rewrite <- M0. apply H. exact Hk.
  Qed.

  (** *** VSLMS_Ang *)
  Theorem C84_Ang : forall rng (kw : kwargs R) n (o o' : obj) d x y e w ws X2 del,
    rng_ok rng -> sane_kw kw -> kw_n kw = Some (Z.of_nat n) -> new_filter rng KAng kw = Ok o ->
    rows_of n x -> length ws = n -> noise_free ws d x -> (forall k, (k < length x)%nat -> normsq (nth k x []) <= X2) ->
    run d x o = (o', Ok (y, e, w)) ->
    let mu := par (kw_mu kw) 1 in let ro := par (kw_ro kw) (2 / 10000) in let a := par (kw_a kw) (95 / 100) in
    let g := (mu - del) * (2 - (mu + del) * X2) in
    Rabs a < 1 -> 0 < del < mu -> (mu + del) * X2 < 2 ->
    Rabs ro * X2 / (1 - Rabs a) * distsq (o_w o) ws <= del * g ->
    settles ws (length x) e w (o_w o) (o_w o') g /\
    exists m, steps_by n x e w (o_w o') m /\ forall k, (k < length x)%nat -> Rabs (m k - mu) <= del.
  Proof.
    intros rng kw n o o' d x y e w ws X2 del Hrng Hkw Hn Ho Hx Hws Hnf HX HR mu ro a g Ha Hdel Hhi Hcond.
    destruct (C65_run_follows_the_recursion solve rng KAng kw n o o' d x y e w Hrng Hkw Hn Ho ltac:(discriminate) ltac:(discriminate) Hx HR) as (_ & HL & m & phi & M0 & P0 & HP & HM & HW).
    change (rate KAng kw) with mu in M0. rewrite (br_V0 rng KAng kw n o o' d x y e w ws X2 Hrng Hkw Hn Ho Hx Hws Hnf HX HR) in Hcond.
    pose proof (seq_Ang n (length x) (fun k i => nth i (nth k x []) 0) (fun k => nth k e 0) (fun k i => nth i (wrow w (o_w o') k) 0) (fun i => nth i ws 0) X2
      (br_X n x X2 Hx HX) (br_X0 rng KAng kw n o o' d x y e w ws X2 Hrng Hkw Hn Ho Hx Hws Hnf HX HR)
      (br_e n o' d x y e w ws Hx Hws Hnf HL) m phi ro a del P0 HP HM HW Ha) as H.
    rewrite M0 in H. specialize (H Hdel Hhi Hcond). fold g in H. split.
    - exact (br_settles rng KAng kw n o o' d x y e w ws X2 Hrng Hkw Hn Ho Hx Hws Hnf HX HR _ _ _ H).
    - exists (fun k => m (S k)). split; [exact HW|]. intros k Hk. destruct H as (H & _). rewrite <- M0. apply H. exact Hk.
  Qed.

  (** *** VSLMS_Benveniste *)
  Theorem C84_Benveniste : forall rng (kw : kwargs R) n (o o' : obj) d x y e w ws X2 del,
    rng_ok rng -> sane_kw kw -> kw_n kw = Some (Z.of_nat n) -> new_filter rng KBenveniste kw = Ok o ->
    rows_of n x -> length ws = n -> noise_free ws d x -> (forall k, (k < length x)%nat -> normsq (nth k x []) <= X2) ->
    run d x o = (o', Ok (y, e, w)) ->
    let mu := par (kw_mu kw) 1 in let ro := par (kw_ro kw) (1 / 10) in
    let g := (mu - del) * (2 - (mu + del) * X2) in
    0 < del < mu -> (mu + del) * X2 < 2 ->
    7 * Rabs ro * distsq (o_w o) ws <= 2 * del * (g * g) ->
    settles ws (length x) e w (o_w o) (o_w o') g /\
    exists m, steps_by n x e w (o_w o') m /\ forall k, (k < length x)%nat -> Rabs (m k - mu) <= del.
  Proof.
    intros rng kw n o o' d x y e w ws X2 del Hrng Hkw Hn Ho Hx Hws Hnf HX HR mu ro g Hdel Hhi Hcond.
    destruct (C65_run_follows_the_recursion solve rng KBenveniste kw n o o' d x y e w Hrng Hkw Hn Ho ltac:(discriminate) ltac:(discriminate) Hx HR) as (_ & HL & m & phi & M0 & P0 & HP & HM & HW).
    change (rate KBenveniste kw) with mu in M0. rewrite (br_V0 rng KBenveniste kw n o o' d x y e w ws X2 Hrng Hkw Hn Ho Hx Hws Hnf HX HR) in Hcond.
    pose proof (seq_Benveniste n (length x) (fun k i => nth i (nth k x []) 0) (fun k => nth k e 0) (fun k i => nth i (wrow w (o_w o') k) 0) (fun i => nth i ws 0) X2
      (br_X n x X2 Hx HX) (br_X0 rng KBenveniste kw n o o' d x y e w ws X2 Hrng Hkw Hn Ho Hx Hws Hnf HX HR)
      (br_e n o' d x y e w ws Hx Hws Hnf HL) m phi ro del P0 HP HM HW) as H.
    rewrite M0 in H. specialize (H Hdel Hhi Hcond). fold g in H. split.
    - exact (br_settles rng KBenveniste kw n o o' d x y e w ws X2 Hrng Hkw Hn Ho Hx Hws Hnf HX HR _ _ _ H).
    - exists (fun k => m (S k)). split; [exact HW|]. intros k Hk. destruct H as (H & _). rewrite <- M0. apply H. exact Hk.
  Qed.

  (** *** GNGD: the regularisation stays within del of its initial value. *)
  Theorem C84_GNGD : forall rng (kw : kwargs R) n (o o' : obj) d x y e w ws X2 del,
    rng_ok rng -> sane_kw kw -> kw_n kw = Some (Z.of_nat n) -> new_filter rng KGNGD kw = Ok o ->
    rows_of n x -> length ws = n -> noise_free ws d x -> (forall k, (k < length x)%nat -> normsq (nth k x []) <= X2) ->
    run d x o = (o', Ok (y, e, w)) ->
    let mu := par (kw_mu kw) 1 in let ro := par (kw_ro kw) (1 / 10) in let eps := par (kw_eps kw) 1 in
    0 < mu < 2 -> 0 < del < eps ->
    Rabs ro * X2 * distsq (o_w o) ws * (eps + del + X2) <= del * (eps - del) ^ 2 * (2 - mu) ->
    settles ws (length x) e w (o_w o) (o_w o') (mu * (2 - mu) / (eps + del + X2)) /\
    exists p, steps_by n x e w (o_w o') (fun k => mu / (p k + normsq (nth k x []))) /\
      forall k, (k < length x)%nat -> Rabs (p k - eps) <= del.
  Proof.
    intros rng kw n o o' d x y e w ws X2 del Hrng Hkw Hn Ho Hx Hws Hnf HX HR mu ro eps Hmu Hdel Hcond.
    destruct (C65_run_follows_the_recursion solve rng KGNGD kw n o o' d x y e w Hrng Hkw Hn Ho ltac:(discriminate) ltac:(discriminate) Hx HR) as (_ & HL & m & M0 & HM & HW).
    fold eps in M0. rewrite (br_V0 rng KGNGD kw n o o' d x y e w ws X2 Hrng Hkw Hn Ho Hx Hws Hnf HX HR) in Hcond.
    pose proof (seq_GNGD n (length x) (fun k i => nth i (nth k x []) 0) (fun k => nth k e 0) (fun k i => nth i (wrow w (o_w o') k) 0) (fun i => nth i ws 0) X2
      (br_X n x X2 Hx HX) (br_X0 rng KGNGD kw n o o' d x y e w ws X2 Hrng Hkw Hn Ho Hx Hws Hnf HX HR)
      (br_e n o' d x y e w ws Hx Hws Hnf HL) m mu ro del HM HW Hmu) as H.
    rewrite M0 in H. specialize (H Hdel Hcond). split.
    - exact (br_settles rng KGNGD kw n o o' d x y e w ws X2 Hrng Hkw Hn Ho Hx Hws Hnf HX HR _ _ _ H).
    - exists (fun k => m (S k)). split.
      + intros k i Hk Hi. etransitivity; [exact (HW k i Hk Hi)|]. unfold normsq, wrow. rewrite (Rdot_sumn n (nth k x []) (nth k x [])) by (apply nth_rows; auto). reflexivity.
      + intros k Hk. destruct H as (H & _). rewrite <- M0. apply H. exact Hk.
  Qed.

  (** *** No step size the user may choose excludes instability: whatever mu and ro (not 0), one weight, two noise-free
      samples of size at most one and a large enough true weight s make the error of the weight grow M times. *)
  Definition two_kw (mu ro : R) (eps a : option R) : kwargs R :=
    mkKw (Some 1%Z) (Some mu) (Some (WVec [0])) eps (Some ro) a None None None None None false.

  Lemma two_rows t : rows_of (T := R) 1 [[t]; [t]].
  Proof. repeat constructor. Qed.

  Lemma two_run rng c (kw : kwargs R) (o : obj) t s : rng_ok rng -> sane_kw kw -> kw_n kw = Some 1%Z -> new_filter rng c kw = Ok o ->
    (forall ex, ~ soft_exn o ex) -> exists o' y e w, run [t * s; t * s] [[t]; [t]] o = (o', Ok (y, e, w)).
  Proof.
    intros Hrng Hkw Hn Ho Hs. apply (run_exists solve 1); auto; [|apply two_rows|discriminate].
    exact (reach_new 1 rng c kw o Hrng Hkw Hn Ho).
  Qed.

  Lemma dotn1 a b : dotn 1 a b = a 0%nat * b 0%nat.
  Proof. unfold dotn. cbn [sumn]. ring. Qed.

  Theorem C84_step_size_diverges : forall rng c mu ro a M, rng_ok rng -> c = KMathews \/ c = KAng \/ c = KBenveniste ->
    ro <> 0 -> 0 <= M ->
    exists t s (o o' : obj) y e w, 0 < t <= 1 /\ 0 < s /\
      new_filter rng c (two_kw mu ro None (match c with KAng => a | _ => None end)) = Ok o /\ o_w o = [0] /\
      run [t * s; t * s] [[t]; [t]] o = (o', Ok (y, e, w)) /\
      Rabs (nth 0 (o_w o') 0 - s) >= M * s.
  Proof.
    intros rng c mu ro a M Hrng Hc Hro HM.
    assert (Ht : exists t, 0 < t <= 1 /\ 1 - mu * t ^ 2 <> 0).
    { destruct (Req_dec mu 1) as [->|Hmu]; [exists (1 / 2)|exists 1]; split; lra. }
    destruct Ht as (t & Ht & HA). set (A := 1 - mu * t ^ 2) in *.
    assert (HA2 : 0 < A ^ 2) by (rewrite <- Rsqr_pow2; apply Rsqr_pos_lt; exact HA).
    assert (Ht6 : 0 < t ^ 6) by (apply pow_lt; lra).
    assert (Hrp : 0 < Rabs ro) by (apply Rabs_pos_lt; exact Hro).
    assert (HMA : 0 <= M / A ^ 2) by (apply Rmult_le_pos; [exact HM|left; apply Rinv_0_lt_compat; exact HA2]).
    set (S2 := (M / A ^ 2 + 1) / (Rabs ro * t ^ 6)).
    assert (HS2 : 0 < S2).
    { unfold S2. apply Rmult_lt_0_compat; [lra|]. apply Rinv_0_lt_compat. apply Rmult_lt_0_compat; assumption. }
    set (s := sqrt S2). assert (Hs : 0 < s) by (apply sqrt_lt_R0; exact HS2).
    assert (Hss : s * s = S2) by (apply sqrt_sqrt; lra).
    set (kw := two_kw mu ro None (match c with KAng => a | _ => None end)).
    assert (Hkw : sane_kw kw) by (split; intros k Hk; discriminate Hk).
    assert (Ho : exists o : obj, new_filter rng c kw = Ok o /\ o_w o = [0] /\ forall ex, ~ soft_exn o ex).
    { destruct Hc as [->|[->| ->]]; [..|]; (eexists; split; [|split]); [try reflexivity..].
      all: try (destruct a; reflexivity). all: intros ex He; exact He. }
    destruct Ho as (o & Ho & Ew & Hex).
    destruct (two_run rng c kw o t s Hrng Hkw eq_refl Ho Hex) as (o' & y & e & w & HR).
    exists t, s, o, o', y, e, w. do 5 (split; [assumption|]).
    assert (Hw : length w = 2%nat).
    { destruct (run_lengths solve 1 o o' _ _ y e w (new_filter_wf rng c kw 1 o Hrng Hkw eq_refl Ho) (two_rows t) HR) as (_ & _ & _ & _ & H & _). exact H. }
    destruct (C65_run_follows_the_recursion solve rng c kw 1 o o' [t * s; t * s] [[t]; [t]] y e w Hrng Hkw eq_refl Ho) as (W0 & HP); auto using two_rows.
    { destruct Hc as [->|[->| ->]]; discriminate. } { destruct Hc as [->|[->| ->]]; discriminate. }
    (* the three classes make the same first two steps *)
    set (W := fun k i => nth i (nth k (w ++ [o_w o']) []) 0) in HP. set (Er := fun k => nth k e 0) in HP.
    assert (HK : (Er 0%nat = t * s - W 0%nat 0%nat * t) /\ (Er 1%nat = t * s - W 1%nat 0%nat * t) /\
      W 1%nat 0%nat = W 0%nat 0%nat + mu * Er 0%nat * t /\
      W 2%nat 0%nat = W 1%nat 0%nat + (mu + ro * Er 1%nat * Er 0%nat * (t * t)) * Er 1%nat * t).
    { destruct Hc as [->|[->| ->]].
      - destruct HP as ((HE & HY) & m & M0 & HM' & HW). change (length [[t]; [t]]) with 2%nat in *.
        pose proof (HE 0%nat ltac:(lia)) as E0. pose proof (HE 1%nat ltac:(lia)) as E1.
        rewrite (HY 0%nat ltac:(lia)), dotn1 in E0. rewrite (HY 1%nat ltac:(lia)), dotn1 in E1. split; [exact E0|]. split; [exact E1|]. clear E0 E1.
        pose proof (HM' 0%nat ltac:(lia)) as m1. pose proof (HM' 1%nat ltac:(lia)) as m2. cbn [before] in m1, m2. rewrite !dotn1 in *. cbn [vbefore nth] in m1, m2.
        change (rate KMathews kw) with mu in M0. change (par (kw_ro kw) (1 / 10)) with ro in *. rewrite M0 in m1.
        rewrite (HW 1%nat 0%nat), (HW 0%nat 0%nat) by lia. cbn [nth].
        split; [rewrite m1; ring|]. rewrite m2, m1. ring.
      - destruct HP as ((HE & HY) & m & phi & M0 & P0 & HP & HM' & HW). change (length [[t]; [t]]) with 2%nat in *.
        pose proof (HE 0%nat ltac:(lia)) as E0. pose proof (HE 1%nat ltac:(lia)) as E1.
        rewrite (HY 0%nat ltac:(lia)), dotn1 in E0. rewrite (HY 1%nat ltac:(lia)), dotn1 in E1. split; [exact E0|]. split; [exact E1|]. clear E0 E1.
        pose proof (HM' 0%nat ltac:(lia)) as m1. pose proof (HM' 1%nat ltac:(lia)) as m2.
        pose proof (HP 0%nat 0%nat ltac:(lia) ltac:(lia)) as p1. pose proof (HP 1%nat 0%nat ltac:(lia) ltac:(lia)) as p2. rewrite (P0 0%nat) in p1 by lia.
        rewrite !dotn1 in *. cbn [before vbefore nth] in m1, m2, p1, p2.
        change (rate KAng kw) with mu in M0. change (par (kw_ro kw) (2 / 10000)) with ro in *. rewrite M0 in m1.
        rewrite (HW 1%nat 0%nat), (HW 0%nat 0%nat) by lia. cbn [nth].
        split; [rewrite m1; ring|]. rewrite m2, m1, p2, p1. ring.
      - destruct HP as ((HE & HY) & m & phi & M0 & P0 & HP & HM' & HW). change (length [[t]; [t]]) with 2%nat in *.
        pose proof (HE 0%nat ltac:(lia)) as E0. pose proof (HE 1%nat ltac:(lia)) as E1.
        rewrite (HY 0%nat ltac:(lia)), dotn1 in E0. rewrite (HY 1%nat ltac:(lia)), dotn1 in E1. split; [exact E0|]. split; [exact E1|]. clear E0 E1.
        pose proof (HM' 0%nat ltac:(lia)) as m1. pose proof (HM' 1%nat ltac:(lia)) as m2.
        pose proof (HP 0%nat 0%nat ltac:(lia) ltac:(lia)) as p1. pose proof (HP 1%nat 0%nat ltac:(lia) ltac:(lia)) as p2.
        rewrite !dotn1 in *. rewrite (P0 0%nat) in p1 by lia. cbn [before vbefore nth] in m1, m2, p1, p2.
        change (rate KBenveniste kw) with mu in M0. change (par (kw_ro kw) (1 / 10)) with ro in *. rewrite M0 in m1.
        rewrite (HW 1%nat 0%nat), (HW 0%nat 0%nat) by lia. cbn [nth].
        split; [rewrite m1; ring|]. rewrite m2, p2, p1, m1. ring. }
    destruct HK as (E0 & E1 & W1 & W2).
    assert (Hw0 : W 0%nat 0%nat = 0) by (unfold W; rewrite W0, Ew; reflexivity).
    assert (Hw2 : W 2%nat 0%nat = nth 0 (o_w o') 0) by (unfold W; rewrite app_nth2, Hw by lia; reflexivity).
    rewrite <- Hw2. clearbody W Er. rewrite Hw0 in *.
    assert (F0 : Er 0%nat = t * s) by (rewrite E0; ring). rewrite F0 in *.
    assert (F1 : Er 1%nat = A * t * s) by (rewrite E1, W1; unfold A; ring). rewrite F1 in *.
    replace (W 2%nat 0%nat - s) with (- (s * (A ^ 2 * (1 - ro * t ^ 6 * (s * s))))).
    2: { rewrite W2, W1. unfold A. ring. }
    rewrite Hss, Rabs_Ropp, Rabs_mult, (Rabs_pos_eq s) by lra. rewrite (Rmult_comm M s). apply Rle_ge. apply Rmult_le_compat_l; [lra|].
    rewrite Rabs_mult, (Rabs_pos_eq (A ^ 2)) by lra.
    apply Rle_trans with (A ^ 2 * (M / A ^ 2)); [right; field; exact HA|]. apply Rmult_le_compat_l; [lra|].
    assert (Hz : Rabs (ro * t ^ 6 * S2) = M / A ^ 2 + 1).
    { rewrite !Rabs_mult, (Rabs_pos_eq (t ^ 6)), (Rabs_pos_eq S2) by lra. unfold S2. field. repeat split; lra || exact HA. }
    pose proof (Rabs_triang_inv (ro * t ^ 6 * S2) 1) as H. rewrite Rabs_R1, Rabs_minus_sym in H. lra.
  Qed.

  Theorem C84_GNGD_diverges : forall rng mu ro eps M, rng_ok rng -> 0 < mu < 2 -> 0 < ro -> 0 < eps -> 0 <= M ->
    exists t s (o o' : obj) y e w, 0 < t <= 1 /\ 0 < s /\
      new_filter rng KGNGD (two_kw mu ro (Some eps) None) = Ok o /\ o_w o = [0] /\
      run [t * s; t * s] [[t]; [t]] o = (o', Ok (y, e, w)) /\
      nth 0 (o_w o') 0 - s = M * s.
  Proof.
    intros rng mu ro eps M Hrng Hmu Hro Heps HM.
    assert (Ht : exists t, 0 < t <= 1 /\ t * t <= eps).
    { destruct (Rle_lt_dec eps 1) as [H|H].
      - exists eps. split; [lra|]. rewrite <- (Rmult_1_r eps) at 3. apply Rmult_le_compat_l; lra.
      - exists 1. lra. }
    destruct Ht as (t & Ht & Hte). set (q := t * t) in *. assert (Hq : 0 < q) by (unfold q; apply Rmult_lt_0_compat; lra).
    set (A := 1 - mu * q / (eps + q)).
    assert (HA : 0 < A).
    { unfold A. apply Rlt_Rminus. apply Rmult_lt_reg_r with (eps + q); [lra|]. replace (mu * q / (eps + q) * (eps + q)) with (mu * q) by (field; lra).
      assert (mu * q < 2 * q) by (apply Rmult_lt_compat_r; lra). lra. }
    set (tau := mu * q / (1 + M / A)).
    assert (HMA : 0 <= M / A) by (apply Rmult_le_pos; [exact HM|left; apply Rinv_0_lt_compat; exact HA]).
    assert (Hmq : 0 < mu * q) by (apply Rmult_lt_0_compat; lra).
    assert (Htau : 0 < tau <= mu * q).
    { unfold tau. split; [apply Rmult_lt_0_compat; [exact Hmq|apply Rinv_0_lt_compat; lra]|].
      apply Rmult_le_reg_r with (1 + M / A); [lra|]. replace (mu * q / (1 + M / A) * (1 + M / A)) with (mu * q) by (field; split; [lra|intros Hz; revert Hz; apply Rgt_not_eq; lra]).
      rewrite <- (Rmult_1_r (mu * q)) at 1. apply Rmult_le_compat_l; lra. }
    assert (Hroom : 0 < eps + q - tau).
    { assert (mu * q < 2 * q) by (apply Rmult_lt_compat_r; lra). lra. }
    assert (Hden : 0 < ro * mu * A * (q * q)) by (repeat apply Rmult_lt_0_compat; lra).
    set (S2 := (eps + q - tau) * (eps + q) ^ 2 / (ro * mu * A * (q * q))).
    assert (HS2 : 0 < S2).
    { unfold S2. apply Rmult_lt_0_compat; [apply Rmult_lt_0_compat; [exact Hroom|apply pow_lt; lra]|apply Rinv_0_lt_compat; exact Hden]. }
    set (s := sqrt S2). assert (Hs : 0 < s) by (apply sqrt_lt_R0; exact HS2).
    assert (Hss : s * s = S2) by (apply sqrt_sqrt; lra).
    set (kw := two_kw mu ro (Some eps) None).
    assert (Hkw : sane_kw kw) by (split; intros k Hk; discriminate Hk).
    assert (Ho : exists o : obj, new_filter rng KGNGD kw = Ok o /\ o_w o = [0] /\ forall ex, ~ soft_exn o ex).
    { eexists; split; [|split]; try reflexivity. intros ex He; exact He. }
    destruct Ho as (o & Ho & Ew & Hex).
    destruct (two_run rng KGNGD kw o t s Hrng Hkw eq_refl Ho Hex) as (o' & y & e & w & HR).
    exists t, s, o, o', y, e, w. do 5 (split; [assumption|]).
    assert (Hw : length w = 2%nat).
    { destruct (run_lengths solve 1 o o' _ _ y e w (new_filter_wf rng KGNGD kw 1 o Hrng Hkw eq_refl Ho) (two_rows t) HR) as (_ & _ & _ & _ & H & _). exact H. }
    destruct (C65_run_follows_the_recursion solve rng KGNGD kw 1 o o' _ _ y e w Hrng Hkw eq_refl Ho ltac:(discriminate) ltac:(discriminate) (two_rows t) HR) as (W0 & HP).
    set (W := fun k i => nth i (nth k (w ++ [o_w o']) []) 0) in HP. set (Er := fun k => nth k e 0) in HP.
    destruct HP as ((HE & HY) & m & M0 & HM' & HW). change (length [[t]; [t]]) with 2%nat in *.
    pose proof (HM' 0%nat ltac:(lia)) as m1. pose proof (HM' 1%nat ltac:(lia)) as m2. cbn [before] in m1, m2. rewrite !dotn1 in *. cbn [vbefore nth] in m1, m2.
    change (par (kw_eps kw) 1) with eps in M0. change (rate KGNGD kw) with mu in *. change (par (kw_ro kw) (1 / 10)) with ro in *. rewrite M0 in m1.
    pose proof (HW 0%nat 0%nat ltac:(lia) ltac:(lia)) as W1. pose proof (HW 1%nat 0%nat ltac:(lia) ltac:(lia)) as W2. rewrite !dotn1 in W1, W2. cbn [nth] in W1, W2.
    pose proof (HE 0%nat ltac:(lia)) as E0. pose proof (HE 1%nat ltac:(lia)) as E1. rewrite (HY 0%nat ltac:(lia)), dotn1 in E0. rewrite (HY 1%nat ltac:(lia)), dotn1 in E1. cbn [nth] in E0, E1.
    assert (Hw0 : W 0%nat 0%nat = 0) by (unfold W; rewrite W0, Ew; reflexivity).
    assert (Hw2 : W 2%nat 0%nat = nth 0 (o_w o') 0) by (unfold W; rewrite app_nth2, Hw by lia; reflexivity).
    rewrite <- Hw2. clear HY HE HW HM'. clearbody W Er. rewrite Hw0 in *. fold q in m1, m2, W1, W2.
    assert (F0 : Er 0%nat = t * s) by (rewrite E0; ring). rewrite F0 in *.
    assert (G1 : m 1%nat = eps) by (rewrite m1; unfold Rdiv; ring). rewrite G1 in *.
    assert (K1 : W 1%nat 0%nat = mu * q / (eps + q) * s) by (rewrite W1; unfold q; field; fold q; lra).
    assert (F1 : Er 1%nat = A * t * s) by (rewrite E1, K1; unfold A; ring). rewrite F1 in *.
    assert (G2 : m 2%nat + q = tau).
    { rewrite m2. replace (A * t * s * (t * s) * q) with (A * (t * t) * (s * s) * q) by ring. fold q. rewrite Hss. unfold S2. field. repeat split; lra. }
    rewrite W2, G2, K1. replace (mu / tau * (A * t * s) * t) with (mu * q / tau * A * s) by (unfold q; field; lra).
    replace (mu * q / tau) with (1 + M / A).
    2: { unfold tau. field. repeat split; lra. }
    unfold A. field. repeat split; try lra.
    intros Hz. apply (Rlt_not_eq 0 (A * (eps + q))); [apply Rmult_lt_0_compat; lra|]. symmetry. unfold A.
    replace ((1 - mu * q / (eps + q)) * (eps + q)) with (eps + q - mu * q) by (field; lra). exact Hz.
  Qed.

  (** filters that meet the hypotheses of the stability theorems, with an initial distance that is not 0 *)
  Example C84_hypotheses :
    let kw := mkKw (Some 2%Z) (Some (1 / 2)) (Some (WVec [1; 1])) None (Some (1 / 100)) None None None None None None false in
    let d := [1; 3 / 2] in let x := [[1; 0]; [0; 1]] in let ws := [1; 3 / 2] in let del := 1 / 4 in
    let g := (1 / 2 - del) * (2 - (1 / 2 + del) * 1) in
    rng_ok (T := R) (fun k => repeat 0 k) /\ sane_kw kw /\ rows_of 2 x /\ noise_free ws d x /\
    (forall k, (k < length x)%nat -> normsq (nth k x []) <= 1) /\
    (forall c, c = KMathews \/ c = KAng \/ c = KBenveniste \/ c = KGNGD ->
       exists (o o' : obj) y e w, new_filter (fun k => repeat 0 k) c kw = Ok o /\ run d x o = (o', Ok (y, e, w)) /\ distsq (o_w o) ws = 1 / 4) /\
    0 < del < 1 / 2 /\ (1 / 2 + del) * 1 < 2 /\
    Rabs (1 / 100) * 1 * (1 / 4) <= del * g /\
    Rabs (95 / 100) < 1 /\ Rabs (1 / 100) * 1 / (1 - Rabs (95 / 100)) * (1 / 4) <= del * g /\
    7 * Rabs (1 / 100) * (1 / 4) <= 2 * del * (g * g) /\
    Rabs (1 / 100) * 1 * (1 / 4) * (1 + del + 1) <= del * (1 - del) ^ 2 * (2 - 1 / 2).
  Proof.
    intros kw d x ws del g.
    assert (Hrng : rng_ok (T := R) (fun k => repeat 0 k)) by (intros k; apply repeat_length).
    assert (Hkw : sane_kw kw) by (split; intros k Hk; discriminate Hk).
    assert (Hx : rows_of 2 x) by (repeat constructor).
    split; [exact Hrng|]. split; [exact Hkw|]. split; [exact Hx|]. split.
    { intros [|[|k]] Hk; cbn in *; try lia; lra. }
    split. { intros [|[|k]] Hk; cbn in *; try lia; unfold normsq; cbn; lra. }
    split.
    { intros c Hc.
      assert (Ho : exists o : obj, new_filter (fun k => repeat 0 k) c kw = Ok o /\ o_w o = [1; 1] /\ forall ex, ~ soft_exn o ex).
      { destruct Hc as [->|[->|[->| ->]]]; (eexists; split; [reflexivity|split; [reflexivity|intros ex He; exact He]]). }
      destruct Ho as (o & Ho & Ew & Hex).
      destruct (run_exists solve 2 o d x (reach_new 2 _ c kw o Hrng Hkw eq_refl Ho) Hx eq_refl ltac:(discriminate) Hex) as (o' & y & e & w & HR).
      exists o, o', y, e, w. split; [exact Ho|]. split; [exact HR|]. rewrite Ew. unfold distsq, normsq. cbn. lra. }
    rewrite !Rabs_pos_eq by lra. unfold g, del. repeat split; lra.
  Qed.
End S.
