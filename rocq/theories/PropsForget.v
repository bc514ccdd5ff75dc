(** C118: when every window of m samples excites all directions, LMS and NLMS forget geometrically (exact real arithmetic).
    The initial weights, and every disturbance and every movement of the system, are forgotten at a geometric rate, so the
    distance to a moving system stays below a fixed bound for runs of any length.  Without excitation this is false: bounded
    inputs and targets within the stability limit drive the weight of LMS beyond every bound. *)
From Coq Require Import Reals Lra Psatz.
From Verif Require Import Py Num Numpy Filters Registry Spec StructProofs RunProofs Reach RMat RVec RFilter PropsStability PropsNoise PropsAlgebra PropsTracking PropsConverge PropsRLS PropsRLSRate.
Open Scope R_scope.

(** ** One sample acts on a weight error z as z - g (z.x) x *)
Definition act (g : R) (x z : rvec) : rvec := vadd z (vsc (- (g * Rdot z x)) x).
Lemma act_length n g x z : length x = n -> length z = n -> length (act g x z) = n.
Proof. intros Lx Lz. unfold act. apply vadd_length; rewrite ?vsc_length; auto. Qed.
Lemma act_normsq g x z : length z = length x -> normsq (act g x z) = normsq z - g * Rdot z x ^ 2 * (2 - g * normsq x).
Proof. intros H. unfold act. rewrite normsq_vadd by (rewrite vsc_length; exact H). rewrite Rdot_vsc_r, normsq_vsc. ring. Qed.
Lemma act_norm g x z : length z = length x -> 0 <= g -> g * normsq x <= 2 -> norm (act g x z) <= norm z.
Proof.
  intros H Hg H2. unfold norm. apply sqrt_le_1_alt. rewrite act_normsq by exact H.
  assert (0 <= g * Rdot z x ^ 2 * (2 - g * normsq x)) by (apply Rmult_le_pos; [apply Rmult_le_pos; [lra|apply pow2_ge_0]|lra]). lra.
Qed.
Lemma act_sub n g x z z' : length x = n -> length z = n -> length z' = n -> vsub (act g x z) (act g x z') = act g x (vsub z z').
Proof.
  intros Lx Lz Lz'. assert (La : length (act g x z) = n) by (apply act_length; auto). assert (La' : length (act g x z') = n) by (apply act_length; auto).
  assert (Ls : length (vsub z z') = n) by (apply vsub_length; auto).
  apply nth_ext0; [rewrite (vsub_length _ _ n) by auto; rewrite act_length with (n := n); auto|]. intros i _.
  rewrite nth_vsub by congruence. unfold act. rewrite !nth_vadd by (rewrite vsc_length; congruence). rewrite nth_vsub by congruence. rewrite !nth_vsc.
  rewrite Rdot_vsub_l by congruence. ring.
Qed.

Lemma norm_via n u v : length u = n -> length v = n -> norm u <= norm v + norm (vsub u v).
Proof.
  intros Lu Lv. assert (E : u = vadd v (vsub u v)).
  { apply nth_ext0; [rewrite (vadd_length _ _ n); auto; apply vsub_length; auto|]. intros i _. rewrite nth_vadd by (rewrite (vsub_length u v n); auto). rewrite nth_vsub by congruence. ring. }
  rewrite E at 1. apply norm_vadd. rewrite (vsub_length u v n); auto.
Qed.
Lemma total_0 f : total 0 f = 0. Proof. reflexivity. Qed.

(** ** One window *)
Section Window.
  Variables (n : nat) (xx : nat -> rvec) (g : nat -> R) (c : R).
  Hypothesis Lx : forall k, length (xx k) = n.
  Hypothesis Hg : forall k, 0 <= g k.
  Hypothesis Hc : forall k, g k * normsq (xx k) <= c.
  Hypothesis Hc2 : c <= 2.

  Fixpoint free (s : nat) (z : rvec) (k : nat) : rvec := match k with O => z | S k => act (g (s + k)%nat) (xx (s + k)%nat) (free s z k) end.
  Lemma free_length s z k : length z = n -> length (free s z k) = n.
  Proof. intros H. induction k as [|k IH]; [exact H|]. cbn [free]. apply act_length; auto. Qed.
  Let t s z k := Rdot (free s z k) (xx (s + k)%nat).

  Lemma energy s z k : length z = n -> normsq (free s z k) + (2 - c) * total k (fun j => g (s + j)%nat * t s z j ^ 2) <= normsq z.
  Proof.
    intros Lz. induction k as [|k IH]; [rewrite total_0; cbn [free]; lra|]. rewrite total_S. cbn [free]. rewrite act_normsq by (rewrite free_length, Lx; auto).
    fold (t s z k). pose proof (Hg (s + k)%nat) as G. pose proof (Hc (s + k)%nat) as C. pose proof (pow2_ge_0 (t s z k)) as T.
    assert (P : 0 <= g (s + k)%nat * t s z k ^ 2) by (apply Rmult_le_pos; assumption).
    assert (g (s + k)%nat * t s z k ^ 2 * (2 - c) <= g (s + k)%nat * t s z k ^ 2 * (2 - g (s + k)%nat * normsq (xx (s + k)%nat))) by (apply Rmult_le_compat_l; lra). lra.
  Qed.
  Lemma walk s z k : length z = n -> normsq (vsub (free s z k) z) <= INR k * (2 * total k (fun j => g (s + j)%nat * t s z j ^ 2)).
  Proof.
    intros Lz. pose proof (drift n (fun k => xx (s + k)%nat) (free s z) (fun k => - (g (s + k)%nat * t s z k)) (fun k => Lx _) (fun k => free_length s z k Lz) (fun k => eq_refl) 0 k) as H.
    cbn [Nat.add free] in H. eapply Rle_trans; [exact H|]. apply Rmult_le_compat_l; [apply pos_INR|]. rewrite total_scal. apply total_le. intros j _.
    cbn [Nat.add]. pose proof (Hg (s + j)%nat) as G. pose proof (Hc (s + j)%nat) as C. pose proof (pow2_ge_0 (t s z j)) as T.
    replace ((- (g (s + j)%nat * t s z j)) ^ 2 * normsq (xx (s + j)%nat)) with (g (s + j)%nat * t s z j ^ 2 * (g (s + j)%nat * normsq (xx (s + j)%nat))) by ring.
    rewrite (Rmult_comm 2). apply Rmult_le_compat_l; [apply Rmult_le_pos; assumption|lra].
  Qed.

  Lemma window s m alpha z : length z = n -> alpha * normsq z <= total m (fun i => g (s + i)%nat * Rdot z (xx (s + i)%nat) ^ 2) ->
    normsq (free s z m) <= (1 - (2 - c) * alpha / (4 * INR m ^ 2)) * normsq z.
  Proof.
    intros Lz HA. pose proof (energy s z m Lz) as HE. set (A := total m (fun j => g (s + j)%nat * t s z j ^ 2)) in *.
    assert (TA : forall k, (k <= m)%nat -> 0 <= total k (fun j => g (s + j)%nat * t s z j ^ 2) <= A).
    { intros k Hk. split; [apply total_nonneg; intros; apply Rmult_le_pos; [apply Hg|apply pow2_ge_0]|].
      apply total_mono; [exact Hk|]. intros j. apply Rmult_le_pos; [apply Hg|apply pow2_ge_0]. }
    assert (A0 : 0 <= A) by (destruct (TA 0%nat ltac:(lia)); lra).
    assert (S1 : forall k, (k <= m)%nat -> total k (fun i => g (s + i)%nat * Rdot z (xx (s + i)%nat) ^ 2) <=
       2 * total k (fun j => g (s + j)%nat * t s z j ^ 2) + 4 * (INR k * (INR k - 1)) * A).
    { induction k as [|k IH]; intros Hk; [rewrite !total_0; change (INR 0) with 0; lra|]. rewrite !total_S, S_INR. specialize (IH ltac:(lia)).
      destruct (TA k ltac:(lia)) as (T0 & T1). pose proof (walk s z k Lz) as W. pose proof (pos_INR k) as K.
      set (x := xx (s + k)%nat) in *. set (u := vsub (free s z k) z) in *. assert (Lu : length u = n) by (apply vsub_length; auto; apply free_length; auto).
      assert (E : Rdot z x = t s z k - Rdot u x). { unfold u, t. fold x. rewrite Rdot_vsub_l; [ring|rewrite free_length, Lz; auto|rewrite Lz; unfold x; rewrite Lx; auto]. }
      pose proof (Cauchy_Schwarz u x) as CS. pose proof (Hg (s + k)%nat) as G. pose proof (Hc (s + k)%nat) as C. fold x in C.
      set (gk := g (s + k)%nat) in *. set (a := t s z k) in *. set (b := Rdot u x) in *. set (U := normsq u) in *. set (X := normsq x) in *.
      assert (U0 : 0 <= U) by apply normsq_nonneg.
      assert (B1 : gk * b ^ 2 <= 2 * U). { apply Rle_trans with (gk * (U * X)); [apply Rmult_le_compat_l; lra|]. replace (gk * (U * X)) with (U * (gk * X)) by ring. rewrite (Rmult_comm 2). apply Rmult_le_compat_l; lra. }
      assert (B2 : U <= INR k * (2 * A)). { eapply Rle_trans; [exact W|]. apply Rmult_le_compat_l; lra. }
      assert (B3 : gk * Rdot z x ^ 2 <= 2 * (gk * a ^ 2) + 2 * (gk * b ^ 2)). { rewrite E. assert (0 <= gk * (a + b) ^ 2) by (apply Rmult_le_pos; [exact G|apply pow2_ge_0]). lra. }
      lra. }
    specialize (S1 m (le_n _)). fold A in S1. pose proof (pos_INR m) as M.
    assert (Z0 : 0 <= normsq z) by apply normsq_nonneg. pose proof (normsq_nonneg (free s z m)) as F0.
    assert (H2 : 0 <= (2 - c) * A) by (apply Rmult_le_pos; lra).
    destruct m as [|m'].
    { assert (I0 : INR 0 ^ 2 = 0) by (change (INR 0) with 0; ring). rewrite I0, Rmult_0_r. unfold Rdiv.
      assert (Hz : alpha * normsq z <= 0) by (rewrite total_0 in HA; exact HA).
      cbn [free]. rewrite Rinv_0. lra. }
    assert (M1 : 1 <= INR (S m')) by (rewrite S_INR; pose proof (pos_INR m'); lra). set (mm := INR (S m')) in *.
    assert (HA2 : alpha * normsq z <= 4 * mm ^ 2 * A). { eapply Rle_trans; [exact HA|]. eapply Rle_trans; [exact S1|]. assert (0 <= (mm - 1) * A) by (apply Rmult_le_pos; lra). lra. }
    assert (P4 : 0 < 4 * mm ^ 2) by nra.
    assert (HA3 : alpha / (4 * mm ^ 2) * normsq z <= A).
    { apply Rmult_le_reg_r with (4 * mm ^ 2); [exact P4|]. replace (alpha / (4 * mm ^ 2) * normsq z * (4 * mm ^ 2)) with (alpha * normsq z) by (field; lra). lra. }
    assert (HA4 : (2 - c) * (alpha / (4 * mm ^ 2) * normsq z) <= (2 - c) * A) by (apply Rmult_le_compat_l; lra).
    replace ((1 - (2 - c) * alpha / (4 * mm ^ 2)) * normsq z) with (normsq z - (2 - c) * (alpha / (4 * mm ^ 2) * normsq z)) by (field; lra). lra.
  Qed.
End Window.

(** ** Perturbed sequences over many windows *)
Section Perturbed.
  Variables (n m N : nat) (xx : nat -> rvec) (g : nat -> R) (c alpha a b L : R) (Z : nat -> rvec).
  Hypothesis Lx : forall k, length (xx k) = n.
  Hypothesis Hg : forall k, 0 <= g k.
  Hypothesis Hc : forall k, g k * normsq (xx k) <= c.
  Hypothesis Hc2 : c <= 2.
  Hypothesis Hm : (1 <= m)%nat.
  Hypothesis Hex : forall s z, (s + m <= N)%nat -> length z = n -> alpha * normsq z <= total m (fun i => g (s + i)%nat * Rdot z (xx (s + i)%nat) ^ 2).
  Hypothesis LZ : forall k, (k <= N)%nat -> length (Z k) = n.
  Hypothesis HZ : forall k, (k < N)%nat -> norm (vsub (Z (S k)) (act (g k) (xx k) (Z k))) <= a * norm (Z k) + b.
  Hypothesis Ha : 0 <= a.
  Hypothesis Hb : 0 <= b.
  Hypothesis HL : forall j, (j <= m)%nat -> (1 + a) ^ j <= L.

  Definition shrink : R := sqrt (1 - (2 - c) * alpha / (4 * INR m ^ 2)).
  Let M := INR m.
  Let Q := shrink + M * a * L.
  Hypothesis HQ : Q < 1.

  Lemma free_shrinks s z : (s + m <= N)%nat -> length z = n -> norm (free xx g s z m) <= shrink * norm z.
  Proof.
    intros Hs Lz. pose proof (window n xx g c Lx Hg Hc Hc2 s m alpha z Lz (Hex s z Hs Lz)) as W. unfold shrink. set (r := 1 - (2 - c) * alpha / (4 * INR m ^ 2)) in *.
    pose proof (normsq_nonneg z) as Z0. pose proof (normsq_nonneg (free xx g s z m)) as F0. unfold norm.
    destruct (Rle_dec 0 r) as [H|H].
    - rewrite <- sqrt_mult by assumption. apply sqrt_le_1_alt, W.
    - assert (r * normsq z <= 0). { assert (0 <= (- r) * normsq z) by (apply Rmult_le_pos; lra). lra. }
      replace (normsq (free xx g s z m)) with 0 by lra. rewrite sqrt_0. apply Rmult_le_pos; apply sqrt_pos.
  Qed.
  Lemma L_ge1 : 1 <= L.
  Proof. specialize (HL 0%nat ltac:(lia)). exact HL. Qed.
  Lemma one_step k : (k < N)%nat -> norm (Z (S k)) <= (1 + a) * norm (Z k) + b.
  Proof.
    intros Hk. pose proof (HZ k Hk) as H. assert (La : length (act (g k) (xx k) (Z k)) = n) by (apply act_length; [apply Lx|apply LZ; lia]).
    pose proof (act_norm (g k) (xx k) (Z k) ltac:(rewrite Lx; apply LZ; lia) (Hg k) ltac:(pose proof (Hc k); lra)) as A.
    assert (T : norm (Z (S k)) <= norm (act (g k) (xx k) (Z k)) + norm (vsub (Z (S k)) (act (g k) (xx k) (Z k)))).
    { apply (norm_via n); [apply LZ; lia|exact La]. }
    lra.
  Qed.
  Lemma inside s j : (j <= m)%nat -> (s + j <= N)%nat -> norm (Z (s + j)%nat) <= L * (norm (Z s) + INR j * b).
  Proof.
    intros Hj Hs. assert (H : norm (Z (s + j)%nat) <= (1 + a) ^ j * (norm (Z s) + INR j * b)).
    { revert Hs. clear Hj. induction j as [|j IH]; intros Hs; [rewrite Nat.add_0_r; change (INR 0) with 0; cbn [pow]; lra|].
      rewrite Nat.add_succ_r. eapply Rle_trans; [apply one_step; lia|]. specialize (IH ltac:(lia)). rewrite S_INR. cbn [pow].
      assert (P : 1 <= (1 + a) ^ j) by (apply pow_R1_Rle; lra).
      assert ((1 + a) * norm (Z (s + j)%nat) <= (1 + a) * ((1 + a) ^ j * (norm (Z s) + INR j * b))) by (apply Rmult_le_compat_l; lra).
      assert (1 * b <= (1 + a) * (1 + a) ^ j * b). { apply Rmult_le_compat_r; [exact Hb|]. assert (0 <= a * (1 + a) ^ j) by (apply Rmult_le_pos; lra). lra. }
      lra. }
    eapply Rle_trans; [exact H|]. apply Rmult_le_compat_r; [|apply HL, Hj]. apply Rplus_le_le_0_compat; [apply norm_pos|apply Rmult_le_pos; [apply pos_INR|exact Hb]].
  Qed.
  Lemma apart s j : (j <= m)%nat -> (s + j <= N)%nat ->
    norm (vsub (Z (s + j)%nat) (free xx g s (Z s) j)) <= INR j * (a * (L * (norm (Z s) + M * b)) + b).
  Proof.
    intros Hj Hs. induction j as [|j IH].
    - rewrite Nat.add_0_r. cbn [free]. change (INR 0) with 0. rewrite Rmult_0_l. right. unfold norm. replace (normsq (vsub (Z s) (Z s))) with 0; [apply sqrt_0|].
      rewrite normsq_vsub by reflexivity. unfold normsq. ring.
    - specialize (IH ltac:(lia) ltac:(lia)). rewrite Nat.add_succ_r in *. rewrite S_INR. cbn [free].
      set (k := (s + j)%nat) in *. set (F := free xx g s (Z s) j) in *.
      assert (LF : length F = n) by (apply free_length; [exact Lx|apply LZ; lia]). assert (Lk : length (Z k) = n) by (apply LZ; lia).
      assert (LS : length (Z (S k)) = n) by (apply LZ; lia).
      assert (La : length (act (g k) (xx k) (Z k)) = n) by (apply act_length; auto). assert (Lb : length (act (g k) (xx k) F) = n) by (apply act_length; auto).
      assert (T : norm (vsub (Z (S k)) (act (g k) (xx k) F)) <= norm (vsub (Z (S k)) (act (g k) (xx k) (Z k))) + norm (vsub (Z k) F)).
      { pose proof (dist_triangle (Z (S k)) (act (g k) (xx k) (Z k)) (act (g k) (xx k) F) n LS La Lb) as D. rewrite !dist_norm in D.
        rewrite (act_sub n) in D by auto. eapply Rle_trans; [exact D|]. apply Rplus_le_compat_l. apply act_norm; [rewrite (vsub_length _ _ n), Lx; auto|apply Hg|pose proof (Hc k); lra]. }
      pose proof (HZ k ltac:(lia)) as H. pose proof (inside s j ltac:(lia) ltac:(lia)) as I. fold k in I.
      assert (I2 : norm (Z k) <= L * (norm (Z s) + M * b)).
      { eapply Rle_trans; [exact I|]. apply Rmult_le_compat_l; [pose proof L_ge1; lra|]. apply Rplus_le_compat_l, Rmult_le_compat_r; [exact Hb|]. apply le_INR. lia. }
      assert (a * norm (Z k) <= a * (L * (norm (Z s) + M * b))) by (apply Rmult_le_compat_l; assumption). lra.
  Qed.
  Let Bw := M * b * (1 + M * a * L).
  Lemma one_window s : (s + m <= N)%nat -> norm (Z (s + m)%nat) <= Q * norm (Z s) + Bw.
  Proof.
    intros Hs. pose proof (apart s m (le_n _) Hs) as A. pose proof (free_shrinks s (Z s) Hs ltac:(apply LZ; lia)) as F.
    assert (Lf : length (free xx g s (Z s) m) = n) by (apply free_length; [exact Lx|apply LZ; lia]). assert (Lm : length (Z (s + m)%nat) = n) by (apply LZ; lia).
    assert (T : norm (Z (s + m)%nat) <= norm (free xx g s (Z s) m) + norm (vsub (Z (s + m)%nat) (free xx g s (Z s) m))).
    { apply (norm_via n); assumption. }
    unfold Q, Bw, M in *. lra.
  Qed.
  Lemma Q_nonneg : 0 <= Q.
  Proof. unfold Q, M. apply Rplus_le_le_0_compat; [apply sqrt_pos|]. pose proof L_ge1. repeat apply Rmult_le_pos; try lra. apply pos_INR. Qed.
  Lemma Bw_nonneg : 0 <= Bw.
  Proof. unfold Bw, M. pose proof L_ge1. pose proof (pos_INR m). assert (0 <= INR m * a * L) by (repeat apply Rmult_le_pos; lra). repeat apply Rmult_le_pos; lra. Qed.
  Lemma windows j : (j * m <= N)%nat -> norm (Z (j * m)%nat) <= Q ^ j * norm (Z 0%nat) + Bw / (1 - Q).
  Proof.
    pose proof Q_nonneg as Q0. pose proof Bw_nonneg as B0. assert (I : 0 < / (1 - Q)) by (apply Rinv_0_lt_compat; lra).
    induction j as [|j IH]; intros Hj.
    - cbn [Nat.mul pow]. assert (0 <= Bw / (1 - Q)) by (apply Rmult_le_pos; lra). lra.
    - specialize (IH ltac:(lia)). replace (S j * m)%nat with (j * m + m)%nat in * by lia. eapply Rle_trans; [apply one_window; lia|]. cbn [pow].
      assert (Q * norm (Z (j * m)%nat) <= Q * (Q ^ j * norm (Z 0%nat) + Bw / (1 - Q))) by (apply Rmult_le_compat_l; assumption).
      replace (Bw / (1 - Q)) with (Q * (Bw / (1 - Q)) + Bw) by (field; lra). lra.
  Qed.
  Lemma forever k : (k <= N)%nat -> norm (Z k) <= L * (Q ^ (k / m) * norm (Z 0%nat) + Bw / (1 - Q) + M * b).
  Proof.
    intros Hk. pose proof (Nat.div_mod k m ltac:(lia)) as E. pose proof (Nat.mod_upper_bound k m ltac:(lia)) as U.
    set (j := (k / m)%nat) in *. set (r := (k mod m)%nat) in *. rewrite (Nat.mul_comm m j) in E.
    pose proof (windows j ltac:(lia)) as W. pose proof (inside (j * m) r ltac:(lia) ltac:(lia)) as I. rewrite <- E in I.
    eapply Rle_trans; [exact I|]. apply Rmult_le_compat_l; [pose proof L_ge1; lra|]. apply Rplus_le_compat; [exact W|].
    apply Rmult_le_compat_r; [exact Hb|]. apply le_INR. lia.
  Qed.
End Perturbed.

Lemma total_sumn m f : total m f = sumn m f.
Proof. induction m as [|m IH]; [reflexivity|]. rewrite total_S, IH. reflexivity. Qed.

Section C118.
  Variable solve : list rvec -> list rvec -> option (list rvec).
  #[local] Hint Extern 0 (Num R) => exact (RNum solve) : typeclass_instances.
  Notation obj := (obj R).

  Lemma first_row n (o o' : obj) d x y e w : wf n o -> rows_of n x -> run d x o = (o', Ok (y, e, w)) -> wrow w (o_w o') 0 = o_w o.
  Proof.
    intros Hr Hx E. destruct (run_lengths solve n o o' d x y e w Hr Hx E) as (Hl & Hne & _ & _ & _ & _ & _ & -> & _ & _).
    unfold wrow; destruct d, x; [congruence|discriminate|discriminate|reflexivity].
  Qed.
  Lemma row_length n (o o' : obj) d x y e w (G : rvec -> R) k : wf n o -> rows_of n x -> run d x o = (o', Ok (y, e, w)) ->
    (forall e v, textbook (o_ext o) (o_mu o) e v = Some (vsc (G v * e) v)) -> (k <= length x)%nat -> length (wrow w (o_w o') k) = n.
  Proof.
    intros Hr Hx E Hg Hk. assert (Ht : forall e v, textbook (o_ext o) (o_mu o) e v <> None) by (intros; rewrite Hg; discriminate).
    destruct (run_lengths solve n o o' d x y e w Hr Hx E) as (_ & Hne & _).
    destruct k as [|k].
    - destruct (run_textbook solve n o o' d x y e w 0%nat Hr Hx Ht E ltac:(destruct x; [contradiction|cbn; lia])) as (dw & _ & _ & _ & _ & H & _). exact H.
    - destruct (run_textbook solve n o o' d x y e w k Hr Hx Ht E ltac:(lia)) as (dw & Htb & Hrow & _ & _ & H & H2). rewrite Hrow. rewrite Hg in Htb. injection Htb as <-.
      apply vadd_length; [exact H|rewrite vsc_length; exact H2].
  Qed.

  Section Run.
    Variables (n m : nat) (x : list rvec) (G : rvec -> R) (c alpha : R).
    Hypothesis Hx : rows_of n x.
    Hypothesis HG : forall v, length v = n -> 0 <= G v.
    Hypothesis Hc : forall k, (k < length x)%nat -> G (nth k x []) * normsq (nth k x []) <= c.
    Hypothesis Hc0 : 0 <= c <= 2.
    Hypothesis Hm : (1 <= m)%nat.
    Hypothesis Hex : forall s v, (s + m <= length x)%nat -> length v = n -> alpha * normsq v <= sumn m (fun i => G (nth (s + i) x []) * Rdot v (nth (s + i) x []) ^ 2).
    Let q := sqrt (1 - (2 - c) * alpha / (4 * INR m ^ 2)).
    Hypothesis Hq : q < 1.
    Let xx k := nth k x (repeat 0 n).
    Lemma xx_in k : (k < length x)%nat -> xx k = nth k x [].
    Proof. intros H. apply nth_indep, H. Qed.
    Lemma xx_len k : length (xx k) = n.
    Proof.
      destruct (Nat.lt_ge_cases k (length x)) as [H|H]; [|unfold xx; rewrite nth_overflow by exact H; apply repeat_length].
      rewrite xx_in by exact H. unfold rows_of in Hx. rewrite Forall_forall in Hx. apply Hx, nth_In, H.
    Qed.
    Lemma xx_c k : G (xx k) * normsq (xx k) <= c.
    Proof.
      destruct (Nat.lt_ge_cases k (length x)) as [H|H]; [rewrite xx_in by exact H; apply Hc, H|].
      unfold xx. rewrite nth_overflow by exact H. unfold normsq. rewrite Rdot_zero_l. lra.
    Qed.
    Lemma xx_ex s z : (s + m <= length x)%nat -> length z = n -> alpha * normsq z <= total m (fun i => G (xx (s + i)%nat) * Rdot z (xx (s + i)%nat) ^ 2).
    Proof.
      intros Hs Lz. eapply Rle_trans; [apply (Hex s z Hs Lz)|]. rewrite total_sumn. right. apply sumn_ext. intros i Hi. rewrite xx_in by lia. reflexivity.
    Qed.
    Lemma zseq (Z : nat -> rvec) p : 0 <= p -> (forall k, (k <= length x)%nat -> length (Z k) = n) ->
      (forall k, (k < length x)%nat -> norm (vsub (Z (S k)) (act (G (nth k x [])) (nth k x []) (Z k))) <= p) ->
      forall k, (k <= length x)%nat -> norm (Z k) <= q ^ (k / m) * norm (Z 0%nat) + INR m * p / (1 - q) + INR m * p.
    Proof.
      intros Hp LZ HZ k Hk.
      pose proof (forever n m (length x) xx (fun k => G (xx k)) c alpha 0 p 1 Z xx_len (fun k => HG _ (xx_len k)) xx_c ltac:(lra) Hm xx_ex LZ) as F.
      specialize (F ltac:(intros j Hj; cbv beta; rewrite (xx_in j Hj); specialize (HZ j Hj); rewrite Rmult_0_l, Rplus_0_l; exact HZ) ltac:(lra) Hp ltac:(intros j _; rewrite Rplus_0_r, pow1; lra)).
      unfold shrink in F. fold q in F. rewrite !Rmult_0_r, !Rmult_0_l, !Rplus_0_r in F. specialize (F Hq k Hk). lra.
    Qed.

    Lemma forget_run (o o' : obj) d y e w (Sys : nat -> rvec) p :
      reachable n o -> (forall e v, textbook (o_ext o) (o_mu o) e v = Some (vsc (G v * e) v)) -> (forall k, length (Sys k) = n) -> run d x o = (o', Ok (y, e, w)) ->
      (forall k, (k < length x)%nat -> drift_at Sys k + G (nth k x []) * (Rabs (disturbance Sys x d k) * norm (nth k x [])) <= p) ->
      forall k, (k <= length x)%nat -> dist (wrow w (o_w o') k) (Sys k) <= q ^ (k / m) * dist (o_w o) (Sys 0%nat) + INR m * p / (1 - q) + INR m * p.
    Proof.
      intros Hr Hg HS E Hp k Hk. apply reachable_wf in Hr.
      assert (Ht : forall e v, textbook (o_ext o) (o_mu o) e v <> None) by (intros; rewrite Hg; discriminate).
      destruct (run_lengths solve n o o' d x y e w Hr Hx E) as (_ & Hne & _).
      assert (P0 : 0 <= p).
      { assert (H0 : (0 < length x)%nat) by (destruct x; [contradiction|cbn; lia]). eapply Rle_trans; [|apply (Hp 0%nat H0)].
        apply Rplus_le_le_0_compat; [apply sqrt_pos|]. apply Rmult_le_pos; [apply HG; rewrite <- (xx_in 0 H0); apply xx_len|apply Rmult_le_pos; [apply Rabs_pos|apply norm_pos]]. }
      assert (LZ : forall k, (k <= length x)%nat -> length (wrow w (o_w o') k) = n) by (intros j Hj; exact (row_length n o o' d x y e w G j Hr Hx E Hg Hj)).
      pose proof (zseq (fun k => vsub (wrow w (o_w o') k) (Sys k)) p P0) as F. cbv beta in F.
      rewrite (first_row n o o' d x y e w Hr Hx E) in F. rewrite !dist_norm. apply F; [intros j Hj; apply vsub_length; auto| |exact Hk].
      clear F k Hk. intros k Hk. eapply Rle_trans; [|apply (Hp k Hk)].
      destruct (run_textbook solve n o o' d x y e w k Hr Hx Ht E Hk) as (dw & Htb & Hrow & Hy & He & Hl1 & Hl2). rewrite Hg in Htb. injection Htb as <-.
      set (xk := nth k x []) in *. set (W := wrow w (o_w o') k) in *. set (W' := wrow w (o_w o') (S k)) in *. set (v := disturbance Sys x d k) in *.
      assert (Hed : nth k e 0 = v - Rdot (vsub W (Sys k)) xk).
      { rewrite He, Hy. unfold v, disturbance. fold xk. rewrite Rdot_vsub_l by (rewrite ?HS; congruence). ring. }
      assert (L1 : length (vsub W (Sys k)) = n) by (apply vsub_length; auto). assert (LW' : length W' = n) by (apply LZ; lia).
      assert (EQ : vsub (vsub W' (Sys (S k))) (act (G xk) xk (vsub W (Sys k))) = vadd (vsub (Sys k) (Sys (S k))) (vsc (G xk * v) xk)).
      { apply nth_ext0.
        - rewrite (vsub_length _ _ n); [|apply vsub_length; auto|apply act_length; auto]. rewrite (vadd_length _ _ n); auto; [apply vsub_length; auto|rewrite vsc_length; auto].
        - intros i _. rewrite nth_vsub by (rewrite (vsub_length _ _ n), (act_length n); auto). rewrite nth_vsub by (rewrite HS; auto). unfold act.
          rewrite nth_vadd by (rewrite vsc_length; congruence). rewrite nth_vsub by (rewrite HS; auto). rewrite nth_vadd by (rewrite vsc_length, (vsub_length _ _ n); auto).
          rewrite nth_vsub by (rewrite !HS; auto). rewrite !nth_vsc. rewrite Hrow, nth_vadd by (rewrite vsc_length; congruence). rewrite nth_vsc, Hed. ring. }
      rewrite EQ. eapply Rle_trans; [apply norm_vadd; rewrite vsc_length, (vsub_length _ _ n); auto|].
      unfold drift_at. rewrite dist_norm. apply Rplus_le_compat_l. rewrite norm_vsc, Rabs_mult, (Rabs_pos_eq (G xk)) by (apply HG; exact Hl2). lra.
    Qed.

    Lemma forget_start (o1 o1' o2 o2' : obj) d y1 e1 w1 y2 e2 w2 :
      reachable n o1 -> reachable n o2 -> (forall e v, textbook (o_ext o1) (o_mu o1) e v = Some (vsc (G v * e) v)) -> (forall e v, textbook (o_ext o2) (o_mu o2) e v = Some (vsc (G v * e) v)) ->
      run d x o1 = (o1', Ok (y1, e1, w1)) -> run d x o2 = (o2', Ok (y2, e2, w2)) ->
      forall k, (k <= length x)%nat -> dist (wrow w1 (o_w o1') k) (wrow w2 (o_w o2') k) <= q ^ (k / m) * dist (o_w o1) (o_w o2).
    Proof.
      intros R1 R2 G1 G2 E1 E2 k Hk. apply reachable_wf in R1. apply reachable_wf in R2.
      assert (T1 : forall e v, textbook (o_ext o1) (o_mu o1) e v <> None) by (intros; rewrite G1; discriminate).
      assert (T2 : forall e v, textbook (o_ext o2) (o_mu o2) e v <> None) by (intros; rewrite G2; discriminate).
      assert (L1 : forall k, (k <= length x)%nat -> length (wrow w1 (o_w o1') k) = n) by (intros j Hj; exact (row_length n o1 o1' d x y1 e1 w1 G j R1 Hx E1 G1 Hj)).
      assert (L2 : forall k, (k <= length x)%nat -> length (wrow w2 (o_w o2') k) = n) by (intros j Hj; exact (row_length n o2 o2' d x y2 e2 w2 G j R2 Hx E2 G2 Hj)).
      pose proof (zseq (fun k => vsub (wrow w1 (o_w o1') k) (wrow w2 (o_w o2') k)) 0 (Rle_refl 0)) as F. cbv beta in F.
      rewrite (first_row n o1 o1' d x y1 e1 w1 R1 Hx E1), (first_row n o2 o2' d x y2 e2 w2 R2 Hx E2) in F.
      unfold Rdiv in F. rewrite !Rmult_0_r, Rmult_0_l in F. rewrite !dist_norm. rewrite <- (Rplus_0_r (q ^ (k / m) * _)), <- (Rplus_0_r (q ^ (k / m) * _ + 0)).
      apply F; [intros j Hj; apply vsub_length; auto| |exact Hk].
      clear F k Hk. intros k Hk.
      destruct (run_textbook solve n o1 o1' d x y1 e1 w1 k R1 Hx T1 E1 Hk) as (dw1 & B1 & Hr1 & Hy1 & He1 & M1 & Lxk). rewrite G1 in B1. injection B1 as <-.
      destruct (run_textbook solve n o2 o2' d x y2 e2 w2 k R2 Hx T2 E2 Hk) as (dw2 & B2 & Hr2 & Hy2 & He2 & M2 & _). rewrite G2 in B2. injection B2 as <-.
      set (xk := nth k x []) in *. set (W1 := wrow w1 (o_w o1') k) in *. set (W2 := wrow w2 (o_w o2') k) in *.
      assert (Lz : length (vsub W1 W2) = n) by (apply vsub_length; auto).
      assert (EQ : vsub (wrow w1 (o_w o1') (S k)) (wrow w2 (o_w o2') (S k)) = act (G xk) xk (vsub W1 W2)).
      { apply nth_ext0; [rewrite (act_length n) by auto; apply vsub_length; auto|]. intros i _. rewrite nth_vsub by (rewrite L1, L2; auto; lia). rewrite Hr1, Hr2.
        unfold act. rewrite !nth_vadd by (rewrite vsc_length; congruence). rewrite nth_vsub, !nth_vsc by congruence. rewrite He1, He2, Hy1, Hy2, Rdot_vsub_l by congruence. ring. }
      rewrite EQ. right. unfold norm. replace (normsq (vsub _ _)) with 0; [apply sqrt_0|]. rewrite normsq_vsub by reflexivity. unfold normsq. ring.
    Qed.
  End Run.

  (** *** LMS *)
  Definition lms_factor (mu c alpha : R) (m : nat) : R := sqrt (1 - (2 - c) * (mu * alpha) / (4 * INR m ^ 2)).
  Lemma factor_lt c al m : 0 < al -> c < 2 -> (1 <= m)%nat -> 0 <= sqrt (1 - (2 - c) * al / (4 * INR m ^ 2)) < 1.
  Proof.
    intros Ha Hc Hm. split; [apply sqrt_pos|]. assert (M1 : 1 <= INR m) by (apply (le_INR 1); exact Hm).
    assert (P : 0 < (2 - c) * al / (4 * INR m ^ 2)) by (apply Rmult_lt_0_compat; [apply Rmult_lt_0_compat; lra|apply Rinv_0_lt_compat; nra]).
    set (r := 1 - (2 - c) * al / (4 * INR m ^ 2)) in *. assert (r < 1) by (unfold r; lra). destruct (Rle_dec 0 r) as [H0|H0]; [apply Rlt_le_trans with (sqrt 1); [apply sqrt_lt_1_alt; lra|rewrite sqrt_1; lra]|].
    rewrite sqrt_neg_0 by lra. lra.
  Qed.
  Lemma excite_gain n m alpha x (G : rvec -> R) gl : exciting_list n m alpha x -> 0 <= gl -> (forall k, (k < length x)%nat -> gl <= G (nth k x [])) ->
    forall s v, (s + m <= length x)%nat -> length v = n -> gl * alpha * normsq v <= sumn m (fun i => G (nth (s + i) x []) * Rdot v (nth (s + i) x []) ^ 2).
  Proof.
    intros (_ & He) Hgl HG s v Hs Lv. apply Rle_trans with (gl * sumn m (fun i => Rdot v (nth (s + i) x []) ^ 2)).
    - rewrite Rmult_assoc. apply Rmult_le_compat_l; [exact Hgl|apply He; assumption].
    - rewrite <- sumn_scal. apply sumn_le. intros i Hi. apply Rmult_le_compat_r; [apply pow2_ge_0|apply HG; lia].
  Qed.

  Theorem C118_LMS_tracking : forall n (o o' : obj) d x y e w (Sys : nat -> rvec) m alpha c p,
    reachable n o -> o_ext o = XLMS -> rows_of n x -> run d x o = (o', Ok (y, e, w)) ->
    0 < o_mu o -> 0 <= c < 2 -> (forall u, In u x -> o_mu o * normsq u <= c) -> (1 <= m)%nat -> exciting_list n m alpha x -> (forall k, length (Sys k) = n) ->
    (forall k, (k < length x)%nat -> drift_at Sys k + o_mu o * (Rabs (disturbance Sys x d k) * norm (nth k x [])) <= p) ->
    let q := lms_factor (o_mu o) c alpha m in 0 <= q < 1 /\
    forall k, (k <= length x)%nat -> dist (wrow w (o_w o') k) (Sys k) <= q ^ (k / m) * dist (o_w o) (Sys 0%nat) + INR m * p / (1 - q) + INR m * p.
  Proof.
    intros n o o' d x y e w Sys m alpha c p Hr HE Hx E Hmu Hc Hxc Hm Hex HS Hp q.
    assert (Hq : 0 <= q < 1) by (apply factor_lt; [apply Rmult_lt_0_compat; [exact Hmu|apply Hex]|apply Hc|exact Hm]). split; [exact Hq|].
    apply (forget_run n m x (fun _ => o_mu o) c (o_mu o * alpha)) with (d := d) (y := y) (e := e); auto; try (lra); try (intros; lra).
    - intros k Hk. apply Hxc, nth_In, Hk.
    - apply (excite_gain n m alpha x (fun _ => o_mu o) (o_mu o) Hex); [lra|intros; lra].
    - apply Hq.
    - intros e0 v. rewrite HE. reflexivity.
  Qed.

  Theorem C118_LMS_start_forgotten : forall n (o1 o1' o2 o2' : obj) d x y1 e1 w1 y2 e2 w2 m alpha c,
    reachable n o1 -> reachable n o2 -> o_ext o1 = XLMS -> o_ext o2 = XLMS -> o_mu o2 = o_mu o1 -> rows_of n x ->
    run d x o1 = (o1', Ok (y1, e1, w1)) -> run d x o2 = (o2', Ok (y2, e2, w2)) ->
    0 < o_mu o1 -> 0 <= c < 2 -> (forall u, In u x -> o_mu o1 * normsq u <= c) -> (1 <= m)%nat -> exciting_list n m alpha x ->
    let q := lms_factor (o_mu o1) c alpha m in 0 <= q < 1 /\
    forall k, (k <= length x)%nat -> dist (wrow w1 (o_w o1') k) (wrow w2 (o_w o2') k) <= q ^ (k / m) * dist (o_w o1) (o_w o2).
  Proof.
    intros n o1 o1' o2 o2' d x y1 e1 w1 y2 e2 w2 m alpha c R1 R2 X1 X2 Em Hx E1 E2 Hmu Hc Hxc Hm Hex q.
    assert (Hq : 0 <= q < 1) by (apply factor_lt; [apply Rmult_lt_0_compat; [exact Hmu|apply Hex]|apply Hc|exact Hm]). split; [exact Hq|].
    apply (forget_start n m x (fun _ => o_mu o1) c (o_mu o1 * alpha)) with (d := d) (y1 := y1) (e1 := e1) (y2 := y2) (e2 := e2); auto; try (lra); try (intros; lra).
    - intros k Hk. apply Hxc, nth_In, Hk.
    - apply (excite_gain n m alpha x (fun _ => o_mu o1) (o_mu o1) Hex); [lra|intros; lra].
    - apply Hq.
    - intros e0 v. rewrite X1. reflexivity.
    - intros e0 v. rewrite X2, Em. reflexivity.
  Qed.

  (** *** NLMS *)
  Definition nlms_factor (mu eps X2 alpha : R) (m : nat) : R := sqrt (1 - (2 - mu) * (mu / (eps + X2) * alpha) / (4 * INR m ^ 2)).
  Section NLMS.
    Variables (n m : nat) (x : list rvec) (mu eps X2 alpha : R).
    Hypothesis Hx : rows_of n x.
    Hypothesis Hne : x <> [].
    Hypothesis Hmu : 0 < mu < 2.
    Hypothesis He : 0 < eps.
    Hypothesis HX : forall u, In u x -> normsq u <= X2.
    Hypothesis Hm : (1 <= m)%nat.
    Hypothesis Hex : exciting_list n m alpha x.
    Lemma X2_pos : 0 <= X2.
    Proof. destruct x as [|u x']; [contradiction|]. eapply Rle_trans; [apply normsq_nonneg|apply (HX u (or_introl eq_refl))]. Qed.
    Lemma nlms_factor_lt : 0 <= nlms_factor mu eps X2 alpha m < 1.
    Proof.
      apply factor_lt; [|lra|exact Hm]. pose proof X2_pos. apply Rmult_lt_0_compat; [apply Rmult_lt_0_compat; [lra|apply Rinv_0_lt_compat; lra]|apply Hex].
    Qed.
    Lemma nlms_gain v : 0 <= mu / (eps + normsq v) /\ mu / (eps + normsq v) * normsq v <= mu.
    Proof.
      pose proof (normsq_nonneg v) as H. assert (I : 0 < / (eps + normsq v)) by (apply Rinv_0_lt_compat; lra). split; [apply Rmult_le_pos; lra|].
      replace (mu / (eps + normsq v) * normsq v) with (mu - mu * eps * / (eps + normsq v)) by (field; lra).
      assert (0 <= mu * eps * / (eps + normsq v)) by (apply Rmult_le_pos; [apply Rmult_le_pos; lra|lra]). lra.
    Qed.
    Lemma nlms_excite s v : (s + m <= length x)%nat -> length v = n ->
      mu / (eps + X2) * alpha * normsq v <= sumn m (fun i => mu / (eps + normsq (nth (s + i) x [])) * Rdot v (nth (s + i) x []) ^ 2).
    Proof.
      pose proof X2_pos. apply (excite_gain n m alpha x (fun v => mu / (eps + normsq v))); [exact Hex|apply Rmult_le_pos; [lra|left; apply Rinv_0_lt_compat; lra]|].
      intros k Hk. apply Rmult_le_compat_l; [lra|]. apply Rinv_le_contravar; [pose proof (normsq_nonneg (nth k x [])); lra|]. apply Rplus_le_compat_l, HX, nth_In, Hk.
    Qed.
  End NLMS.

  Theorem C118_NLMS_tracking : forall n (o o' : obj) d x y e w (Sys : nat -> rvec) eps m alpha X2 p,
    reachable n o -> o_ext o = XNLMS eps -> rows_of n x -> run d x o = (o', Ok (y, e, w)) ->
    0 < o_mu o < 2 -> 0 < eps -> (forall u, In u x -> normsq u <= X2) -> (1 <= m)%nat -> exciting_list n m alpha x -> (forall k, length (Sys k) = n) ->
    (forall k, (k < length x)%nat -> drift_at Sys k + o_mu o / (eps + normsq (nth k x [])) * (Rabs (disturbance Sys x d k) * norm (nth k x [])) <= p) ->
    let q := nlms_factor (o_mu o) eps X2 alpha m in 0 <= q < 1 /\
    forall k, (k <= length x)%nat -> dist (wrow w (o_w o') k) (Sys k) <= q ^ (k / m) * dist (o_w o) (Sys 0%nat) + INR m * p / (1 - q) + INR m * p.
  Proof.
    intros n o o' d x y e w Sys eps m alpha X2 p Hr HE Hx E Hmu He HX Hm Hex HS Hp q.
    destruct (run_lengths solve n o o' d x y e w (reachable_wf _ _ Hr) Hx E) as (_ & Hne & _).
    assert (Hq : 0 <= q < 1) by (apply (nlms_factor_lt n m x (o_mu o) eps X2 alpha); auto). split; [exact Hq|].
    apply (forget_run n m x (fun v => o_mu o / (eps + normsq v)) (o_mu o) (o_mu o / (eps + X2) * alpha)) with (d := d) (y := y) (e := e); auto; try lra.
    - intros v _. apply nlms_gain; lra.
    - intros k Hk. apply nlms_gain; lra.
    - intros s v. apply (nlms_excite n m x (o_mu o) eps X2 alpha); auto; lra.
    - apply Hq.
    - intros e0 v. rewrite HE. reflexivity.
  Qed.

  Theorem C118_NLMS_start_forgotten : forall n (o1 o1' o2 o2' : obj) d x y1 e1 w1 y2 e2 w2 eps m alpha X2,
    reachable n o1 -> reachable n o2 -> o_ext o1 = XNLMS eps -> o_ext o2 = XNLMS eps -> o_mu o2 = o_mu o1 -> rows_of n x ->
    run d x o1 = (o1', Ok (y1, e1, w1)) -> run d x o2 = (o2', Ok (y2, e2, w2)) ->
    0 < o_mu o1 < 2 -> 0 < eps -> (forall u, In u x -> normsq u <= X2) -> (1 <= m)%nat -> exciting_list n m alpha x ->
    let q := nlms_factor (o_mu o1) eps X2 alpha m in 0 <= q < 1 /\
    forall k, (k <= length x)%nat -> dist (wrow w1 (o_w o1') k) (wrow w2 (o_w o2') k) <= q ^ (k / m) * dist (o_w o1) (o_w o2).
  Proof.
    intros n o1 o1' o2 o2' d x y1 e1 w1 y2 e2 w2 eps m alpha X2 R1 R2 X1 X2' Em Hx E1 E2 Hmu He HX Hm Hex q.
    destruct (run_lengths solve n o1 o1' d x y1 e1 w1 (reachable_wf _ _ R1) Hx E1) as (_ & Hne & _).
    assert (Hq : 0 <= q < 1) by (apply (nlms_factor_lt n m x (o_mu o1) eps X2 alpha); auto). split; [exact Hq|].
    apply (forget_start n m x (fun v => o_mu o1 / (eps + normsq v)) (o_mu o1) (o_mu o1 / (eps + X2) * alpha)) with (d := d) (y1 := y1) (e1 := e1) (y2 := y2) (e2 := e2); auto; try lra.
    - intros v _. apply nlms_gain; lra.
    - intros k Hk. apply nlms_gain; lra.
    - intros s v. apply (nlms_excite n m x (o_mu o1) eps X2 alpha); auto; lra.
    - apply Hq.
    - intros e0 v. rewrite X1. reflexivity.
    - intros e0 v. rewrite X2', Em. reflexivity.
  Qed.

  (** *** Without excitation: inputs 1, 1/sqrt 2, 1/sqrt 3, ..., every target 1 *)
  Definition fading (k : nat) : rvec := [/ sqrt (INR k + 1)].
  Lemma fading_normsq k : normsq (fading k) = / (INR k + 1).
  Proof.
    unfold fading, normsq. pose proof (pos_INR k) as K. replace (Rdot [/ sqrt (INR k + 1)] [/ sqrt (INR k + 1)]) with (/ sqrt (INR k + 1) * / sqrt (INR k + 1)) by (cbn; ring).
    rewrite <- Rinv_mult. rewrite sqrt_sqrt by lra. reflexivity.
  Qed.
  Lemma fading_bound k : normsq (fading k) <= 1.
  Proof. rewrite fading_normsq. pose proof (pos_INR k). rewrite <- Rinv_1. apply Rinv_le_contravar; lra. Qed.
  Lemma grow_step k W gk ga : 0 < ga <= gk -> gk * / (INR k + 1) <= 1 -> ga / (1 + ga) * sqrt (INR k) <= W ->
    ga / (1 + ga) * sqrt (INR k + 1) <= W + gk * (1 - W * / sqrt (INR k + 1)) * / sqrt (INR k + 1).
  Proof.
    intros Hg H1 HW. pose proof (pos_INR k) as K. set (r := sqrt (INR k + 1)). set (t := sqrt (INR k)) in *. set (a := ga / (1 + ga)) in *.
    assert (R1 : 1 <= r) by (unfold r; rewrite <- sqrt_1 at 1; apply sqrt_le_1_alt; lra).
    assert (T0 : 0 <= t) by apply sqrt_pos. assert (Er : r * r = INR k + 1) by (apply sqrt_sqrt; lra). assert (Et : t * t = INR k) by (apply sqrt_sqrt; lra).
    assert (Tr : t <= r) by (apply sqrt_le_1_alt; lra). rewrite <- Er in H1.
    assert (A0 : 0 < a) by (unfold a; apply Rmult_lt_0_compat; [lra|apply Rinv_0_lt_compat; lra]).
    assert (AG : a * (1 + gk) <= gk).
    { unfold a. apply Rmult_le_reg_r with (1 + ga); [lra|]. replace (ga / (1 + ga) * (1 + gk) * (1 + ga)) with (ga * (1 + gk)) by (field; lra). lra. }
    apply Rmult_le_reg_r with (r * r); [nra|].
    replace ((W + gk * (1 - W * / r) * / r) * (r * r)) with (W * (r * r - gk) + gk * r) by (field; lra).
    assert (G2 : gk <= r * r). { apply Rmult_le_reg_r with (/ (r * r)); [apply Rinv_0_lt_compat; nra|]. rewrite Rinv_r by nra. exact H1. }
    apply Rle_trans with (a * t * (r * r - gk) + gk * r); [|apply Rplus_le_compat_r, Rmult_le_compat_r; lra].
    (* a r^3 <= a t r^2 - a t gk + gk r *)
    assert (D : r - t <= / r). { apply Rmult_le_reg_r with r; [lra|]. rewrite Rinv_l by lra. nra. }
    assert (D2 : a * r * (r * (r - t)) <= a * r * 1). { apply Rmult_le_compat_l; [nra|]. apply Rle_trans with (r * / r); [apply Rmult_le_compat_l; lra|]. rewrite Rinv_r by lra. lra. }
    assert (D3 : a * (t * gk) <= a * (r * gk)) by (apply Rmult_le_compat_l; [lra|apply Rmult_le_compat_r; lra]).
    assert (D4 : r * (a * (1 + gk)) <= r * gk) by (apply Rmult_le_compat_l; lra). nra.
  Qed.
  Lemma fading_run (o : obj) (G : rvec -> R) ga N : reachable 1 o -> (forall e v, textbook (o_ext o) (o_mu o) e v = Some (vsc (G v * e) v)) ->
    (forall ex, ~ soft_exn o ex) -> 0 <= nth 0 (o_w o) 0 -> 0 < ga -> (forall k, ga <= G (fading k)) -> (forall k, G (fading k) * normsq (fading k) <= 1) -> (1 <= N)%nat ->
    exists o' y e w, run (first N (fun _ => 1)) (first N fading) o = (o', Ok (y, e, w)) /\ ga / (1 + ga) * sqrt (INR N) <= nth 0 (o_w o') 0.
  Proof.
    intros Hr Hg Hs H0 Hga HG HG2 HN.
    assert (Hx : rows_of 1 (first N fading)). { apply Forall_forall. intros u Hu. unfold first in Hu. apply in_map_iff in Hu as (k & <- & _). reflexivity. }
    assert (Lx : length (first N fading) = N) by apply first_length. assert (Ld : length (first N (fun _ : nat => 1)) = N) by apply first_length.
    destruct (run_exists solve 1 o (first N (fun _ => 1)) (first N fading) Hr Hx ltac:(congruence) ltac:(intros C; rewrite C in Lx; cbn in Lx; lia) Hs) as (o' & y & e & w & E).
    exists o', y, e, w. split; [exact E|]. apply reachable_wf in Hr.
    assert (Ht : forall e v, textbook (o_ext o) (o_mu o) e v <> None) by (intros; rewrite Hg; discriminate).
    destruct (run_lengths solve 1 o o' _ _ y e w Hr Hx E) as (_ & _ & _ & _ & Lw & _). rewrite Lx in Lw.
    assert (Main : forall k, (k <= N)%nat -> ga / (1 + ga) * sqrt (INR k) <= nth 0 (wrow w (o_w o') k) 0).
    { induction k as [|k IH]; intros Hk.
      - rewrite (first_row 1 o o' _ _ y e w Hr Hx E). change (INR 0) with 0. rewrite sqrt_0. lra.
      - specialize (IH ltac:(lia)). destruct (run_textbook solve 1 o o' _ _ y e w k Hr Hx Ht E ltac:(lia)) as (dw & Htb & Hrow & Hy & He & Hl1 & Hl2).
        rewrite (first_nth N fading k []) in Htb, Hy, Hl2 by lia. rewrite (first_nth N (fun _ => 1) k 0) in He by lia. rewrite Hg in Htb. injection Htb as <-.
        change [G (fading k) * nth k e 0 * / sqrt (INR k + 1)] with (vsc (G (fading k) * nth k e 0) (fading k)) in Hrow.
        rewrite Hrow, nth_vadd by (rewrite vsc_length; congruence). rewrite nth_vsc, He, Hy, S_INR.
        set (W := wrow w (o_w o') k) in *. destruct W as [|W0 [|]] eqn:EW; cbn in Hl1; try discriminate. cbn [nth] in *.
        replace (Rdot [W0] (fading k)) with (W0 * / sqrt (INR k + 1)) by (unfold fading; cbn; ring). change (nth 0 (fading k) 0) with (/ sqrt (INR k + 1)).
        apply grow_step; [split; [exact Hga|apply HG]| |exact IH]. rewrite <- fading_normsq. apply HG2. }
    specialize (Main N (le_n _)). unfold wrow in Main. rewrite app_nth2, Lw, Nat.sub_diag in Main by lia. exact Main.
  Qed.

  Theorem C118_unbounded_without : 
    (forall (o : obj) N, reachable 1 o -> o_ext o = XLMS -> 0 < o_mu o <= 1 -> 0 <= nth 0 (o_w o) 0 -> (1 <= N)%nat ->
      (forall u, In u (first N fading) -> o_mu o * normsq u <= 1) /\
      exists o' y e w, run (first N (fun _ => 1)) (first N fading) o = (o', Ok (y, e, w)) /\ o_mu o / (1 + o_mu o) * sqrt (INR N) <= nth 0 (o_w o') 0) /\
    (forall (o : obj) eps N, reachable 1 o -> o_ext o = XNLMS eps -> 0 < o_mu o <= 1 -> 0 < eps -> 0 <= nth 0 (o_w o) 0 -> (1 <= N)%nat ->
      exists o' y e w, run (first N (fun _ => 1)) (first N fading) o = (o', Ok (y, e, w)) /\
        o_mu o / (1 + eps) / (1 + o_mu o / (1 + eps)) * sqrt (INR N) <= nth 0 (o_w o') 0).
  Proof.
    split.
    - intros o N Hr HE Hmu H0 HN.
      assert (B : forall k, o_mu o * normsq (fading k) <= 1). { intros k. pose proof (fading_bound k). pose proof (normsq_nonneg (fading k)). nra. }
      split; [intros u Hu; unfold first in Hu; apply in_map_iff in Hu as (k & <- & _); apply B|].
      apply (fading_run o (fun _ => o_mu o)); auto; try lra; try (intros; lra).
      + intros e v. rewrite HE. reflexivity.
      + intros ex. unfold soft_exn. rewrite HE. auto.
    - intros o eps N Hr HE Hmu He H0 HN. assert (I : 0 < / (1 + eps)) by (apply Rinv_0_lt_compat; lra).
      apply (fading_run o (fun v => o_mu o / (eps + normsq v))); auto.
      + intros e v. rewrite HE. reflexivity.
      + intros ex. unfold soft_exn. rewrite HE. auto.
      + apply Rmult_lt_0_compat; lra.
      + intros k. apply Rmult_le_compat_l; [lra|]. apply Rinv_le_contravar; [pose proof (normsq_nonneg (fading k)); lra|pose proof (fading_bound k); lra].
      + intros k. eapply Rle_trans; [apply (nlms_gain (o_mu o) eps); lra|lra].
  Qed.

  (** the hypotheses are met: unit inputs along the two axes in turn, a system that moves, disturbed targets, 100 samples *)
  Example C118_hypotheses :
    let x := first 100 alternating in
    let Sys k := [INR k / 1000; 1] in
    let d := map (fun k => Rdot (Sys k) (alternating k) + 1 / 10) (seq 0 100) in
    exciting_list 2 2 1 x /\ (forall u, In u x -> normsq u = 1) /\
    reachable 2 (fresh2 (1 / 2) XLMS) /\ reachable 2 (fresh2 (1 / 2) (XNLMS 1)) /\ dist [0; 0] (Sys 0%nat) = 1 /\
    (exists o' y e w, run d x (fresh2 (1 / 2) XLMS) = (o', Ok (y, e, w))) /\ (exists o' y e w, run d x (fresh2 (1 / 2) (XNLMS 1)) = (o', Ok (y, e, w))) /\
    (forall k, (k < length x)%nat -> drift_at Sys k + 1 / 2 * (Rabs (disturbance Sys x d k) * norm (nth k x [])) <= 51 / 1000).
  Proof.
    intros x Sys d. assert (Lx : length x = 100%nat) by apply first_length. assert (Hx : rows_of 2 x).
    { apply Forall_forall. intros u Hu. unfold x, first in Hu. apply in_map_iff in Hu as (k & <- & _). unfold alternating. destruct (Nat.even k); reflexivity. }
    assert (Nx : forall k, (k < length x)%nat -> nth k x [] = alternating k) by (intros k Hk; apply first_nth; lia).
    assert (N1 : forall k, normsq (alternating k) = 1) by (intros k; unfold alternating, normsq; destruct (Nat.even k); cbn; ring).
    assert (Hne : x <> []) by (intros C; rewrite C in Lx; discriminate).
    assert (Ld : length d = length x) by (unfold d; rewrite map_length, seq_length, Lx; reflexivity).
    split. { destruct alternating_exciting as (Ha & He). split; [exact Ha|]. intros j v Hj Lv. eapply Rle_trans; [apply (He j v Lv)|]. rewrite total_sumn. right.
      apply sumn_ext. intros i Hi. rewrite Nx by lia. reflexivity. }
    split. { intros u Hu. unfold x, first in Hu. apply in_map_iff in Hu as (k & <- & _). apply N1. }
    assert (R1 : reachable 2 (fresh2 (1 / 2) XLMS)) by (apply (fresh2_reachable solve (1 / 2) None None None KLMS); reflexivity).
    assert (R2 : reachable 2 (fresh2 (1 / 2) (XNLMS 1))) by (apply (fresh2_reachable solve (1 / 2) (Some 1) None None KNLMS); reflexivity).
    split; [exact R1|]. split; [exact R2|].
    split. { unfold dist, Sys. change (INR 0) with 0. replace (distsq [0; 0] [0 / 1000; 1]) with 1 by (unfold distsq, normsq; cbn; field). apply sqrt_1. }
    split; [apply (run_exists solve 2); auto; intros ex; unfold soft_exn; cbn; auto|]. split; [apply (run_exists solve 2); auto; intros ex; unfold soft_exn; cbn; auto|].
    intros k Hk. assert (Ed : nth k d 0 = Rdot (Sys k) (alternating k) + 1 / 10).
    { unfold d. rewrite (nth_indep _ 0 ((fun k => Rdot (Sys k) (alternating k) + 1 / 10) 0%nat)) by (rewrite map_length, seq_length; lia).
      rewrite (map_nth (fun k => Rdot (Sys k) (alternating k) + 1 / 10)), seq_nth by lia. reflexivity. }
    unfold disturbance. rewrite Nx by exact Hk. rewrite Ed. replace (Rdot (Sys k) (alternating k) + 1 / 10 - Rdot (Sys k) (alternating k)) with (1 / 10) by ring.
    unfold norm. rewrite N1, sqrt_1, Rabs_pos_eq by lra. unfold drift_at, dist.
    replace (distsq (Sys k) (Sys (S k))) with ((1 / 1000) * (1 / 1000)) by (unfold Sys, distsq, normsq; rewrite S_INR; cbn; field). rewrite sqrt_square by lra. lra.
  Qed.
End C118.
