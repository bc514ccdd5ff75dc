(** C119: LMS and NLMS on IEEE binary64 under persistent excitation run for ever.  When every window of m samples excites all
    directions by more than the rounding of the window, then for runs of any length nothing overflows and no nan appears, the
    weights stay below a fixed bound, the start is forgotten geometrically down to a fixed floor, and the distance to the run in
    exact arithmetic and to the system being identified has a fixed bound.  (The bounds of C89 grow with the length of the run.) *)
From Coq Require Import ZArith QArith Qreals Reals Lra Psatz Uint63 FloatOps FloatAxioms SpecFloat.
From Coq Require PrimFloat.
From Flocq Require Import Core BinarySingleNaN.
From Flocq Require IEEE754.PrimFloat.
From Verif Require Import Py Num NumF Numpy Filters Registry Spec StructProofs RunProofs Reach RMat RVec RFilter PropsStability PropsNoise PropsAlgebra PropsTracking PropsConverge PropsRLS PropsRLSRate
  FloatErr PropsRound PropsRoundRun PropsNoOverflow PropsForget.
Open Scope R_scope.
#[local] Notation sqrt := R_sqrt.sqrt.

(** ** The quantities in the statements *)
(** [q]: contraction of one window in exact arithmetic; [beta]: largest exact move of the weights in one step from zero *)
Definition room (n m : nat) (q beta : R) : R := 4 * INR m * (beta + unit_err n * (beta + 1)) / (1 - q).
(** no weight vector of the run is longer than this *)
Definition ceiling (n m : nat) (q beta W0 : R) : R := 2 * (W0 + room n m q beta).
(** the rounding error of one step *)
Definition jitter (n m : nat) (q beta W0 : R) : R := unit_err n * (ceiling n m q beta W0 + beta + 1).
(** what errors of size p in every step add up to, for ever *)
Definition floor_of (m : nat) (q p : R) : R := 2 * INR m * p / (1 - q).

Lemma floor_of_ok M q p : 0 <= q < 1 -> 0 <= M -> 0 <= p -> M * p / (1 - q) + M * p <= 2 * M * p / (1 - q).
Proof.
  intros Hq HM Hp. assert (I : 1 <= / (1 - q)) by (rewrite <- Rinv_1 at 1; apply Rinv_le_contravar; lra).
  assert (0 <= M * p) by (apply Rmult_le_pos; assumption). unfold Rdiv. assert (M * p * 1 <= M * p * / (1 - q)) by (apply Rmult_le_compat_l; assumption). lra.
Qed.

Definition grad (g : R) (x : rvec) (d : R) (w : rvec) : rvec := vadd w (vsc (g * (d - Rdot w x)) x).
Lemma grad_length n g x d w : length x = n -> length w = n -> length (grad g x d w) = n.
Proof. intros Lx Lw. apply vadd_length; [exact Lw|rewrite vsc_length; exact Lx]. Qed.

(** ** Two sequences that both follow the gradient step up to errors *)
Section Pair.
  Variable solve : list rvec -> list rvec -> option (list rvec).
  Variables (n m : nat) (x : list rvec) (G : rvec -> R) (c alpha : R).
  Hypothesis Hx : rows_of n x.
  Hypothesis HG : forall v, length v = n -> 0 <= G v.
  Hypothesis Hc : forall k, (k < length x)%nat -> G (nth k x []) * normsq (nth k x []) <= c.
  Hypothesis Hc0 : 0 <= c <= 2.
  Hypothesis Hm : (1 <= m)%nat.
  Hypothesis Hex : forall s v, (s + m <= length x)%nat -> length v = n -> alpha * normsq v <= sumn m (fun i => G (nth (s + i) x []) * Rdot v (nth (s + i) x []) ^ 2).
  Let q := sqrt (1 - (2 - c) * alpha / (4 * INR m ^ 2)).
  Hypothesis Hq : q < 1.
  Lemma pair (D : nat -> R) (U V : nat -> rvec) pu pv : 0 <= pu -> 0 <= pv ->
    (forall k, (k <= length x)%nat -> length (U k) = n /\ length (V k) = n) ->
    (forall k, (k < length x)%nat -> norm (vsub (U (S k)) (grad (G (nth k x [])) (nth k x []) (D k) (U k))) <= pu) ->
    (forall k, (k < length x)%nat -> norm (vsub (V (S k)) (grad (G (nth k x [])) (nth k x []) (D k) (V k))) <= pv) ->
    forall k, (k <= length x)%nat -> dist (U k) (V k) <= q ^ (k / m) * dist (U 0%nat) (V 0%nat) + floor_of m q (pu + pv).
  Proof.
    intros P1 P2 L HU HV k Hk. rewrite !dist_norm.
    pose proof (zseq n m x G c alpha Hx HG Hc Hc0 Hm Hex Hq (fun k => vsub (U k) (V k)) (pu + pv) ltac:(lra)) as Z. cbv beta in Z.
    eapply Rle_trans; [apply Z; [| |exact Hk]|].
    - intros j Hj. apply vsub_length; apply L, Hj.
    - clear Z k Hk. intros k Hk. destruct (L k ltac:(lia)) as (A1 & A2). destruct (L (S k) ltac:(lia)) as (A3 & A4).
      assert (Lx : length (nth k x []) = n) by (unfold rows_of in Hx; rewrite Forall_forall in Hx; apply Hx, nth_In, Hk).
      specialize (HU k Hk). specialize (HV k Hk). set (g := G (nth k x [])) in *. set (xk := nth k x []) in *.
      assert (B1 : length (grad g xk (D k) (U k)) = n) by (apply grad_length; auto). assert (B2 : length (grad g xk (D k) (V k)) = n) by (apply grad_length; auto).
      assert (EQ : vsub (vsub (U (S k)) (V (S k))) (act g xk (vsub (U k) (V k))) =
        vadd (vsub (U (S k)) (grad g xk (D k) (U k))) (vsc (-1) (vsub (V (S k)) (grad g xk (D k) (V k))))).
      { assert (C1 : length (vsub (U (S k)) (V (S k))) = n) by (apply vsub_length; auto). assert (C2 : length (vsub (U k) (V k)) = n) by (apply vsub_length; auto).
        assert (C3 : length (act g xk (vsub (U k) (V k))) = n) by (apply act_length; auto).
        assert (C4 : length (vsub (U (S k)) (grad g xk (D k) (U k))) = n) by (apply vsub_length; auto). assert (C5 : length (vsub (V (S k)) (grad g xk (D k) (V k))) = n) by (apply vsub_length; auto).
        apply nth_ext0; [rewrite (vsub_length _ _ n), (vadd_length _ _ n); auto; rewrite vsc_length; auto|]. intros i _.
        rewrite nth_vsub by congruence. rewrite nth_vsub by congruence. rewrite nth_vadd by (rewrite vsc_length; congruence). rewrite nth_vsc. rewrite !nth_vsub by congruence.
        unfold act, grad. rewrite !nth_vadd by (rewrite vsc_length; congruence). rewrite !nth_vsc. rewrite nth_vsub by congruence. rewrite Rdot_vsub_l by congruence. ring. }
      rewrite EQ. eapply Rle_trans; [apply norm_vadd; rewrite vsc_length, !(vsub_length _ _ n); auto|]. rewrite norm_vsc. replace (Rabs (-1)) with 1 by (rewrite Rabs_left; lra). lra.
    - unfold floor_of. pose proof (floor_of_ok (INR m) q (pu + pv) (conj (sqrt_pos _) Hq) (pos_INR m) ltac:(lra)). fold q. lra.
  Qed.
End Pair.

(** ** One run in binary64 *)
Section Endless.
  Variable solve : list (list float) -> list (list float) -> option (list (list float)).
  Variables (tanh exp : float -> float) (power : float -> float -> float) (sum : list float -> float) (dot : list float -> list float -> float).
  Hypothesis dot_ok : forall u v, length u = length v -> evaluates (combine u v) (dot u v).
  #[local] Hint Extern 0 (Num float) => exact (FNumD solve tanh exp power sum dot) : typeclass_instances.

  Section Gen.
    Variables (n m : nat) (oF oF' : obj float) (d : list float) (x : list (list float)) (yF eF : list float) (wF : list (list float)).
    Variables (cF : list float -> float) (cR : rvec -> R) (qq rho : nat -> R) (c alpha beta W0 : R).
    Hypothesis WFF : wf n oF.
    Hypothesis Hx : rows_of n x.
    Hypothesis HRF : run d x oF = (oF', Ok (yF, eF, wF)).
    Hypothesis KF : is_AP oF = false /\ is_OCNLMS oF = false /\ forall s er u, o_ext s = o_ext oF -> o_mu s = o_mu oF ->
      learning_rule er u s = (s, Ok (map (fun a => PrimFloat.mul (PrimFloat.mul (cF u) a) er) u)).
    Let X k := map val (nth k x []).
    Let D k := val (nth k d PrimFloat.zero).
    Let WF k := map val (nth k (wF ++ [o_w oF']) []).
    Hypothesis Hn : (Z.of_nat n <= 2 ^ 40)%Z.
    Hypothesis Fw0 : Forall fin (o_w oF).
    Hypothesis HW0 : norm (map val (o_w oF)) <= W0.
    Hypothesis HWb : W0 <= 2 ^ 100.
    Hypothesis Hb : 0 <= beta <= 2 ^ 302.
    Hypothesis HS : forall k, (k < length x)%nat -> fin (cF (nth k x [])) /\ Forall fin (nth k x []) /\ fin (nth k d PrimFloat.zero) /\
      0 <= cR (X k) <= 2 ^ 110 /\ 0 <= qq k <= 16 * (INR n + 1) * uro /\ Rabs (val (cF (nth k x [])) - cR (X k)) <= rho k /\ rho k <= cR (X k) * qq k + eta /\
      cR (X k) * normsq (X k) <= c /\ norm (X k) <= 2 ^ 100 /\ Rabs (D k) <= 2 ^ 100 /\ cR (X k) * norm (X k) * (Rabs (D k) + 1) <= beta.
    Hypothesis Hc : 0 <= c <= 2.
    Hypothesis Hm : (1 <= m)%nat.
    Hypothesis Hex : forall s v, (s + m <= length x)%nat -> length v = n -> alpha * normsq v <= sumn m (fun i => cR (X (s + i)%nat) * Rdot v (X (s + i)%nat) ^ 2).
    Let q := sqrt (1 - (2 - c) * alpha / (4 * INR m ^ 2)).
    Let a := unit_err n.
    Hypothesis Hq : 4 * INR m * a <= 1 - q.
    Let b := beta + a * (beta + 1).
    Let size k := 2 * (((1 + q) / 2) ^ (k / m) * W0 + room n m q beta).

    Lemma a_pos : 4 * uro <= a.
    Proof. unfold a, unit_err. pose proof (pos_INR n). pose proof uro_pos. assert (4 * uro <= 256 * uro) by lra. assert (0 <= INR n * uro) by (apply Rmult_le_pos; lra). lra. Qed.
    Lemma m_ge1 : 1 <= INR m.
    Proof. apply (le_INR 1). exact Hm. Qed.
    Lemma q_bounds : 0 <= q < 1.
    Proof.
      pose proof a_pos. pose proof m_ge1. pose proof uro_pos. split; [apply sqrt_pos|].
      assert (1 * a <= INR m * a) by (apply Rmult_le_compat_r; lra). lra.
    Qed.
    Lemma W0_pos : 0 <= W0. Proof. eapply Rle_trans; [apply norm_pos|exact HW0]. Qed.
    Lemma b_bounds : 0 <= b <= 2 ^ 304.
    Proof.
      pose proof a_pos. pose proof m_ge1. pose proof uro_pos. pose proof q_bounds.
      assert (A1 : a <= 1). { assert (1 * a <= INR m * a) by (apply Rmult_le_compat_r; lra). lra. }
      unfold b. assert (0 <= a * (beta + 1) <= 1 * (beta + 1)) by (split; [apply Rmult_le_pos; lra|apply Rmult_le_compat_r; lra]).
      assert (1 <= 2 ^ 302) by (apply pow_R1_Rle; lra). replace (2 ^ 304) with (4 * 2 ^ 302) by (replace 4 with (2 ^ 2) by lra; rewrite <- pow_add; reflexivity). lra.
    Qed.
    Lemma room_pos : 0 <= room n m q beta.
    Proof.
      unfold room. fold a. fold b. pose proof m_ge1. pose proof b_bounds. pose proof q_bounds.
      apply Rmult_le_pos; [repeat apply Rmult_le_pos; lra|left; apply Rinv_0_lt_compat; lra].
    Qed.
    Lemma room_big : room n m q beta <= 2 ^ 360.
    Proof.
      unfold room. fold a. fold b. pose proof m_ge1 as M1. pose proof b_bounds as B. pose proof q_bounds as Q. pose proof a_pos as A. pose proof uro_pos as U.
      assert (T : INR m / (1 - q) <= 2 ^ 53).
      { apply Rmult_le_reg_r with (1 - q); [lra|]. unfold Rdiv. rewrite Rmult_assoc, Rinv_l, Rmult_1_r by lra.
        apply Rle_trans with (2 ^ 53 * (4 * INR m * a)); [|apply Rmult_le_compat_l; [left; apply pow_lt; lra|exact Hq]].
        assert (2 ^ 53 * uro = 1) by (unfold uro; field). assert (INR m * (2 ^ 53 * uro) <= INR m * (2 ^ 53 * a)) by (apply Rmult_le_compat_l; [lra|]; apply Rmult_le_compat_l; [left; apply pow_lt; lra|lra]).
        assert (0 <= INR m * (2 ^ 53 * a)) by (apply Rmult_le_pos; [lra|]; apply Rmult_le_pos; [left; apply pow_lt; lra|lra]). rewrite H, Rmult_1_r in H0. lra. }
      assert (T0 : 0 <= INR m / (1 - q)) by (apply Rmult_le_pos; [lra|left; apply Rinv_0_lt_compat; lra]).
      replace (4 * INR m * b / (1 - q)) with (4 * (INR m / (1 - q) * b)) by (field; lra).
      assert (INR m / (1 - q) * b <= 2 ^ 53 * 2 ^ 304) by (apply Rmult_le_compat; lra). rewrite <- pow_add in H. change (53 + 304)%nat with 357%nat in H.
      assert (4 * 2 ^ 357 <= 2 ^ 360) by (replace 4 with (2 ^ 2) by lra; rewrite <- pow_add; apply Rle_pow; [lra|leb]). lra.
    Qed.
    Lemma p_pow k : 0 <= ((1 + q) / 2) ^ k <= 1.
    Proof. pose proof q_bounds. split; [apply pow_le; lra|]. apply Rle_trans with (1 ^ k); [apply pow_incr; lra|rewrite pow1; lra]. Qed.
    Lemma size_ceiling k : size k <= ceiling n m q beta W0.
    Proof.
      unfold size, ceiling. pose proof (p_pow (k / m)). pose proof W0_pos. assert (((1 + q) / 2) ^ (k / m) * W0 <= 1 * W0) by (apply Rmult_le_compat_r; lra). lra.
    Qed.
    Lemma ceiling_big : ceiling n m q beta W0 <= 2 ^ 400.
    Proof.
      unfold ceiling. pose proof room_big. assert (2 ^ 100 <= 2 ^ 360) by (apply Rle_pow; [lra|leb]).
      assert (4 * 2 ^ 360 <= 2 ^ 400) by (replace 4 with (2 ^ 2) by lra; rewrite <- pow_add; apply Rle_pow; [lra|leb]). lra.
    Qed.

    Lemma one k : (k < length x)%nat -> Forall fin (nth k (wF ++ [o_w oF']) []) -> norm (WF k) <= 2 ^ 400 ->
      fin (nth k yF PrimFloat.zero) /\ fin (nth k eF PrimFloat.zero) /\ Forall fin (nth (S k) (wF ++ [o_w oF']) []) /\
      norm (vsub (WF (S k)) (grad (cR (X k)) (X k) (D k) (WF k))) <= a * (norm (WF k) + beta + 1).
    Proof.
      intros Hk Fk Bk. destruct KF as (K1 & K2 & K3).
      destruct (plain_run n oF oF' d x yF eF wF (fun er u => map (fun a => PrimFloat.mul (PrimFloat.mul (cF u) a) er) u) WFF Hx K1 K2 K3 ltac:(intros; apply map_length) HRF) as (_ & HF).
      destruct (HF k Hk) as (L1 & L2 & L3 & HFy & HFe & HFw).
      change (nth k yF PrimFloat.zero = dot (nth k (wF ++ [o_w oF']) []) (nth k x [])) in HFy.
      change (nth k eF PrimFloat.zero = PrimFloat.sub (nth k d PrimFloat.zero) (nth k yF PrimFloat.zero)) in HFe.
      change (nth (S k) (wF ++ [o_w oF']) [] = map2 PrimFloat.add (nth k (wF ++ [o_w oF']) []) (map (fun a => PrimFloat.mul (PrimFloat.mul (cF (nth k x [])) a) (nth k eF PrimFloat.zero)) (nth k x []))) in HFw.
      destruct (HS k Hk) as (S1 & S2 & S3 & S4 & S5 & S6 & S7 & S8 & S9 & S10 & S11).
      destruct (step_bounds dot dot_ok n (nth k (wF ++ [o_w oF']) []) (nth k x []) (cF (nth k x [])) (nth k d PrimFloat.zero) (cR (X k)) (qq k) (rho k)
        L1 L3 Hn Fk S2 S1 S3 S4 S5 S6 S7 ltac:(fold (X k); lra) Bk S9 S10) as (R1 & R2 & R3 & R4 & _).
      pose proof (float_step dot dot_ok n (cR (X k)) (rho k) (nth k (wF ++ [o_w oF']) []) (nth k x []) (cF (nth k x [])) (nth k d PrimFloat.zero) L1 L3 R3 R1 R2 ltac:(lra) S6) as F.
      cbv zeta in F.
      rewrite <- HFy in R1, R2, R3, R4, F. rewrite <- HFe in R2, R3, R4, F. rewrite <- HFw in R3, R4, F.
      split; [exact R1|]. split; [exact R2|]. split; [exact R3|].
      change (norm (map val (nth k (wF ++ [o_w oF']) []))) with (norm (WF k)) in R4. fold (X k) (D k) in R4, F. fold (WF k) (WF (S k)) in R4, F. fold (unit_err n) a in R4.
      assert (M : a * (norm (WF k) + cR (X k) * norm (X k) * (Rabs (D k) + 1) + 1) <= a * (norm (WF k) + beta + 1)) by (apply Rmult_le_compat_l; [apply unit_err_nonneg|lra]).
      eapply Rle_trans; [|exact M]. eapply Rle_trans; [|exact R4].
      assert (LW : length (WF k) = n) by (unfold WF; rewrite map_length; exact L1). assert (LW' : length (WF (S k)) = n) by (unfold WF; rewrite map_length; exact L2).
      assert (LX : length (X k) = n) by (unfold X; rewrite map_length; exact L3).
      apply (norm_le n); [apply vsub_length; [exact LW'|apply grad_length; auto]|apply tab_length|]. intros i Hi. rewrite tab_nth by exact Hi.
      rewrite nth_vsub by (rewrite (grad_length n); auto). unfold grad. rewrite nth_vadd by (rewrite vsc_length; congruence). rewrite nth_vsc. apply F, Hi.
    Qed.
    Lemma row_len k : (k <= length x)%nat -> length (WF k) = n.
    Proof.
      intros Hk. destruct KF as (K1 & K2 & K3).
      destruct (plain_run n oF oF' d x yF eF wF (fun er u => map (fun a => PrimFloat.mul (PrimFloat.mul (cF u) a) er) u) WFF Hx K1 K2 K3 ltac:(intros; apply map_length) HRF) as (E0 & HF).
      destruct k as [|k]; unfold WF; rewrite map_length; [|apply (HF k ltac:(lia))]. change (nth 0 (wF ++ [o_w oF']) [] = o_w oF) in E0. rewrite E0. apply WFF.
    Qed.
    Lemma row_0 : nth 0 (wF ++ [o_w oF']) [] = o_w oF.
    Proof.
      destruct KF as (K1 & K2 & K3).
      destruct (plain_run n oF oF' d x yF eF wF (fun er u => map (fun a => PrimFloat.mul (PrimFloat.mul (cF u) a) er) u) WFF Hx K1 K2 K3 ltac:(intros; apply map_length) HRF) as (E0 & HF).
      exact E0.
    Qed.

    Let xx k := if (k <? length x)%nat then X k else repeat 0 n.
    Let g k := if (k <? length x)%nat then cR (X k) else 0.
    Lemma xx_lt k : (k < length x)%nat -> xx k = X k /\ g k = cR (X k).
    Proof. intros H. unfold xx, g. apply Nat.ltb_lt in H. rewrite H. auto. Qed.

    Lemma sized N : (N <= length x)%nat -> (forall j, (j < N)%nat -> norm (vsub (WF (S j)) (grad (cR (X j)) (X j) (D j) (WF j))) <= a * (norm (WF j) + beta + 1)) ->
      norm (WF N) <= size N.
    Proof.
      intros HN HP. pose proof a_pos as A. pose proof m_ge1 as M1. pose proof uro_pos as U. pose proof q_bounds as Q. pose proof b_bounds as B.
      assert (MA : 0 <= INR m * a) by (apply Rmult_le_pos; lra). assert (Hma : INR m * a <= / 4) by lra.
      assert (LX : forall k, (k < length x)%nat -> length (X k) = n). { intros k Hk. unfold X. rewrite map_length. unfold rows_of in Hx. rewrite Forall_forall in Hx. apply Hx, nth_In, Hk. }
      assert (Q1 : q + INR m * a * 2 <= (1 + q) / 2) by lra.
      pose proof (forever n m N xx g c alpha a b 2 WF) as F. unfold shrink in F. fold q in F.
      lapply F; [clear F; intros F|intros k; unfold xx; destruct (k <? length x)%nat eqn:E; [apply LX, Nat.ltb_lt, E|apply repeat_length]].
      lapply F; [clear F; intros F|intros k; unfold g; destruct (k <? length x)%nat eqn:E; [apply (HS k), Nat.ltb_lt, E|lra]].
      lapply F; [clear F; intros F|intros k; unfold g, xx; destruct (k <? length x)%nat eqn:E; [apply (HS k), Nat.ltb_lt, E|rewrite Rmult_0_l; lra]].
      specialize (F ltac:(lra) Hm).
      lapply F; [clear F; intros F|].
      2:{ intros s z Hs Lz. rewrite total_sumn. eapply Rle_trans; [apply (Hex s z ltac:(lia) Lz)|]. right. apply sumn_ext. intros i Hi. destruct (xx_lt (s + i)%nat ltac:(lia)) as (-> & ->). reflexivity. }
      lapply F; [clear F; intros F|intros k Hk; apply row_len; lia].
      lapply F; [clear F; intros F|].
      2:{ intros k Hk. destruct (xx_lt k ltac:(lia)) as (-> & ->). specialize (HP k Hk). set (gr := grad (cR (X k)) (X k) (D k) (WF k)) in *.
          assert (LW : length (WF k) = n) by (apply row_len; lia). assert (LW' : length (WF (S k)) = n) by (apply row_len; lia). assert (Lk : length (X k) = n) by (apply LX; lia).
          assert (Lg : length gr = n) by (apply grad_length; auto). assert (La : length (act (cR (X k)) (X k) (WF k)) = n) by (apply act_length; auto).
          assert (EQ : vsub (WF (S k)) (act (cR (X k)) (X k) (WF k)) = vadd (vsub (WF (S k)) gr) (vsc (cR (X k) * D k) (X k))).
          { assert (Lv : length (vsub (WF (S k)) gr) = n) by (apply vsub_length; auto). apply nth_ext0; [rewrite (vsub_length _ _ n), (vadd_length _ _ n); auto; rewrite vsc_length; auto|]. intros i _.
            rewrite nth_vsub by congruence. rewrite nth_vadd by (rewrite vsc_length; congruence). rewrite nth_vsub by congruence. rewrite nth_vsc. unfold gr, grad, act.
            rewrite !nth_vadd by (rewrite vsc_length; congruence). rewrite !nth_vsc. ring. }
          rewrite EQ. eapply Rle_trans; [apply norm_vadd; rewrite vsc_length, (vsub_length _ _ n); auto|]. rewrite norm_vsc.
          destruct (HS k ltac:(lia)) as (_ & _ & _ & (G0 & _) & _ & _ & _ & _ & _ & _ & S11). rewrite Rabs_mult, (Rabs_pos_eq (cR (X k))) by exact G0.
          pose proof (norm_pos (X k)). assert (0 <= cR (X k) * norm (X k)) by (apply Rmult_le_pos; assumption). unfold b. lra. }
      specialize (F ltac:(lra) ltac:(lra)).
      lapply F; [clear F; intros F|].
      2:{ intros j Hj. apply growth; [lra|]. apply Rle_trans with (INR m * a); [apply Rmult_le_compat_r; [lra|apply le_INR, Hj]|lra]. }
      specialize (F ltac:(lra) N (le_n _)). eapply Rle_trans; [exact F|]. unfold size. apply Rmult_le_compat_l; [lra|].
      set (Qt := q + INR m * a * 2) in *. assert (Qt0 : 0 <= Qt) by (unfold Qt; assert (0 <= INR m * a) by (apply Rmult_le_pos; lra); lra).
      assert (E1 : Qt ^ (N / m) * norm (WF 0%nat) <= ((1 + q) / 2) ^ (N / m) * W0).
      { apply Rmult_le_compat; [apply pow_le; exact Qt0|apply norm_pos|apply pow_incr; lra|]. unfold WF. rewrite row_0. exact HW0. }
      assert (MB : 0 <= INR m * b) by (apply Rmult_le_pos; lra).
      assert (E2 : INR m * b * (1 + INR m * a * 2) / (1 - Qt) <= 3 * (INR m * b) * / (1 - q)).
      { apply Rle_trans with (INR m * b * (3 / 2) * (2 * / (1 - q))); [|right; field; lra]. unfold Rdiv. apply Rmult_le_compat.
        - apply Rmult_le_pos; lra.
        - left. apply Rinv_0_lt_compat. lra.
        - apply Rmult_le_compat_l; lra.
        - replace (2 * / (1 - q)) with (/ ((1 - q) / 2)) by (field; lra). apply Rinv_le_contravar; lra. }
      assert (E3 : INR m * b <= INR m * b * / (1 - q)).
      { rewrite <- (Rmult_1_r (INR m * b)) at 1. apply Rmult_le_compat_l; [exact MB|]. rewrite <- Rinv_1 at 1. apply Rinv_le_contravar; lra. }
      unfold room. fold a. fold b. unfold Rdiv in *. lra.
    Qed.

    Lemma endless k : (k <= length x)%nat -> Forall fin (nth k (wF ++ [o_w oF']) []) /\ norm (WF k) <= size k /\
      ((k < length x)%nat -> fin (nth k yF PrimFloat.zero) /\ fin (nth k eF PrimFloat.zero) /\
        norm (vsub (WF (S k)) (grad (cR (X k)) (X k) (D k) (WF k))) <= jitter n m q beta W0).
    Proof.
      assert (Main : forall k, (k <= length x)%nat -> Forall fin (nth k (wF ++ [o_w oF']) []) /\ norm (WF k) <= size k /\
        forall j, (j < k)%nat -> norm (vsub (WF (S j)) (grad (cR (X j)) (X j) (D j) (WF j))) <= a * (norm (WF j) + beta + 1)).
      { clear k. induction k as [|k IH]; intros Hk.
        - split; [rewrite row_0; exact Fw0|]. split; [apply sized; [lia|intros j Hj; lia]|intros j Hj; lia].
        - destruct (IH ltac:(lia)) as (I1 & I2 & I3).
          destruct (one k Hk I1 ltac:(eapply Rle_trans; [exact I2|]; eapply Rle_trans; [apply size_ceiling|apply ceiling_big])) as (_ & _ & O3 & O4).
          assert (P : forall j, (j < S k)%nat -> norm (vsub (WF (S j)) (grad (cR (X j)) (X j) (D j) (WF j))) <= a * (norm (WF j) + beta + 1)).
          { intros j Hj. destruct (Nat.eq_dec j k) as [-> | Hne]; [exact O4|]. apply I3. lia. }
          split; [exact O3|]. split; [apply sized; auto|exact P]. }
      intros Hk. destruct (Main k Hk) as (I1 & I2 & _). split; [exact I1|]. split; [exact I2|]. intros Hk'.
      pose proof (size_ceiling k) as SC. destruct (one k Hk' I1 ltac:(pose proof ceiling_big; lra)) as (O1 & O2 & _ & O4). split; [exact O1|]. split; [exact O2|].
      eapply Rle_trans; [exact O4|]. unfold jitter. apply Rmult_le_compat_l; [apply unit_err_nonneg|lra].
    Qed.

    (** a sequence V that follows the gradient step up to errors pv *)
    Hypothesis HG : forall v, length v = n -> 0 <= cR v.
    Lemma jitter_nonneg : 0 <= jitter n m q beta W0.
    Proof.
      unfold jitter, ceiling. pose proof room_pos. pose proof W0_pos. apply Rmult_le_pos; [apply unit_err_nonneg|lra].
    Qed.
    Lemma XR k : nth k (map (map val) x) [] = X k.
    Proof. apply (map_nth (map val) x [] k). Qed.
    Lemma near_seq (V : nat -> rvec) pv : 0 <= pv -> (forall k, (k <= length x)%nat -> length (V k) = n) ->
      (forall k, (k < length x)%nat -> norm (vsub (V (S k)) (grad (cR (X k)) (X k) (D k) (V k))) <= pv) ->
      forall k, (k <= length x)%nat -> dist (WF k) (V k) <= q ^ (k / m) * dist (map val (o_w oF)) (V 0%nat) + floor_of m q (jitter n m q beta W0 + pv).
    Proof.
      intros Hp LV HV k Hk. pose proof (pair n m (map (map val) x) cR c alpha) as P. rewrite map_length in P.
      assert (E0 : WF 0%nat = map val (o_w oF)) by (unfold WF; rewrite row_0; reflexivity). rewrite <- E0.
      apply P with (D := D); auto.
      - apply Forall_forall. intros r Hr. apply in_map_iff in Hr as (r' & <- & Hr). rewrite map_length. unfold rows_of in Hx. rewrite Forall_forall in Hx. apply Hx; exact Hr.
      - intros j Hj. rewrite XR. apply HS, Hj.
      - intros s v Hs Lv. eapply Rle_trans; [apply (Hex s v Hs Lv)|]. right. apply sumn_ext. intros i _. rewrite XR. reflexivity.
      - apply q_bounds.
      - apply jitter_nonneg.
      - intros j Hj. split; [apply row_len, Hj|apply LV, Hj].
      - intros j Hj. rewrite XR. destruct (endless j ltac:(lia)) as (_ & _ & H). apply H, Hj.
      - intros j Hj. rewrite XR. apply HV, Hj.
    Qed.

    (** the system *)
    Lemma near_system (Sys : nat -> rvec) p : 0 <= p -> (forall k, length (Sys k) = n) ->
      (forall k, (k < length x)%nat -> drift_at Sys k + cR (X k) * (Rabs (disturbance Sys (map (map val) x) (map val d) k) * norm (X k)) <= p) ->
      forall k, (k <= length x)%nat -> dist (WF k) (Sys k) <= q ^ (k / m) * dist (map val (o_w oF)) (Sys 0%nat) + floor_of m q (jitter n m q beta W0 + p).
    Proof.
      intros Hp HSy Hd. apply near_seq; [exact Hp|auto|]. intros k Hk. eapply Rle_trans; [|apply (Hd k Hk)].
      assert (LX : length (X k) = n). { unfold X. rewrite map_length. unfold rows_of in Hx. rewrite Forall_forall in Hx. apply Hx, nth_In, Hk. }
      set (v := disturbance Sys (map (map val) x) (map val d) k).
      assert (Ev : D k - Rdot (Sys k) (X k) = v). { unfold v, disturbance. rewrite XR, vals_nth. reflexivity. }
      assert (EQ : vsub (Sys (S k)) (grad (cR (X k)) (X k) (D k) (Sys k)) = vsc (-1) (vadd (vsub (Sys k) (Sys (S k))) (vsc (cR (X k) * v) (X k)))).
      { assert (Lg : length (grad (cR (X k)) (X k) (D k) (Sys k)) = n) by (apply grad_length; auto). assert (Ls : length (vsub (Sys k) (Sys (S k))) = n) by (apply vsub_length; auto).
        apply nth_ext0; [rewrite vsc_length, (vsub_length _ _ n), (vadd_length _ _ n); auto; rewrite vsc_length; auto|]. intros i _.
        rewrite nth_vsub by (rewrite HSy; auto). unfold grad. rewrite nth_vsc. rewrite !nth_vadd by (rewrite vsc_length, ?HSy; congruence). rewrite nth_vsub by (rewrite !HSy; auto). rewrite !nth_vsc, Ev. ring. }
      rewrite EQ, norm_vsc. replace (Rabs (-1)) with 1 by (rewrite Rabs_left; lra). rewrite Rmult_1_l.
      eapply Rle_trans; [apply norm_vadd; rewrite vsc_length, (vsub_length _ _ n); auto|]. unfold drift_at. rewrite dist_norm, norm_vsc, Rabs_mult, (Rabs_pos_eq (cR (X k))) by (apply HG, LX). lra.
    Qed.

    (** exact arithmetic *)
    Section Exact.
      Variable solveR : list rvec -> list rvec -> option (list rvec).
      #[local] Hint Extern 0 (Num R) => exact (RNum solveR) : typeclass_instances.
      Variables (oR oR' : obj R) (yR eR : rvec) (wR : list rvec).
      Hypothesis WFR : wf n oR.
      Hypothesis HRR : run (map val d) (map (map val) x) oR = (oR', Ok (yR, eR, wR)).
      Hypothesis Hw0 : o_w oR = map val (o_w oF).
      Hypothesis KR : is_AP oR = false /\ is_OCNLMS oR = false /\ forall s er u, o_ext s = o_ext oR -> o_mu s = o_mu oR ->
        learning_rule er u s = (s, Ok (map (fun a => cR u * a * er) u)).
      Let WR k := nth k (wR ++ [o_w oR']) [].
      Lemma near_exact :
        (forall k, (k <= length x)%nat -> dist (WF k) (WR k) <= floor_of m q (jitter n m q beta W0)) /\
        (forall k, (k < length x)%nat -> Rabs (val (nth k yF PrimFloat.zero) - nth k yR 0) <=
          floor_of m q (jitter n m q beta W0) * norm (X k) + 2 * INR n * (uro * (ceiling n m q beta W0 * norm (X k)) + eta)).
      Proof.
        assert (HN : (0 < length x)%nat).
        { destruct x as [|x0 x']; [|cbn; lia]. exfalso. unfold run in HRF. destruct d; cbn in HRF; discriminate. }
        assert (HxR : rowsl n (map (map val) x)).
        { unfold rowsl. apply Forall_forall. intros r Hr. apply in_map_iff in Hr as (r' & <- & Hr). rewrite map_length. unfold rows_of in Hx. rewrite Forall_forall in Hx. apply Hx; exact Hr. }
        destruct KR as (KR1 & KR2 & KR3).
        destruct (plain_run n oR oR' (map val d) (map (map val) x) yR eR wR (fun er u => map (fun a => cR u * a * er) u) WFR HxR KR1 KR2 KR3 ltac:(intros; apply map_length) HRR) as (R0 & HR).
        rewrite map_length in HR. change (WR 0%nat = o_w oR) in R0.
        assert (LR : forall k, (k <= length x)%nat -> length (WR k) = n).
        { intros [|k] Hk; unfold WR; [destruct (HR 0%nat HN) as (H & _)|destruct (HR k ltac:(lia)) as (_ & H & _)]; exact H. }
        assert (N0 : forall u : rvec, norm (vsub u u) = 0). { intros u. unfold norm. replace (normsq (vsub u u)) with 0; [apply sqrt_0|]. rewrite normsq_vsub by reflexivity. unfold normsq. ring. }
        assert (HC : forall k, (k <= length x)%nat -> dist (WF k) (WR k) <= floor_of m q (jitter n m q beta W0)).
        { intros k Hk. eapply Rle_trans; [apply (near_seq WR 0 (Rle_refl 0) LR); [|exact Hk]|rewrite R0, Hw0, (dist_norm (map val (o_w oF))), N0, Rmult_0_r, Rplus_0_l, Rplus_0_r; lra].
          clear k Hk. intros k Hk. destruct (HR k Hk) as (_ & _ & _ & HRy & HRe & HRw).
          change (WR (S k) = map2 nadd (WR k) (map (fun a : R => cR (nth k (map (map val) x) []) * a * nth k eR n0) (nth k (map (map val) x) []))) in HRw.
          change (nth k eR n0 = nth k (map val d) 0 - nth k yR 0) in HRe. change (nth k yR 0 = Rdot (WR k) (nth k (map (map val) x) [])) in HRy.
          rewrite XR in *. rewrite HRe, HRy, vals_nth in HRw. fold (D k) in HRw.
          replace (WR (S k)) with (grad (cR (X k)) (X k) (D k) (WR k)); [rewrite N0; lra|]. rewrite HRw. unfold grad, vadd. apply (f_equal (map2 Rplus (WR k))).
          unfold vsc. apply map_ext. intros z. ring. }
        split; [exact HC|]. intros k Hk.
        assert (FL : Forall fin yF).
        { apply Forall_forall. intros v Hv. destruct (In_nth _ _ PrimFloat.zero Hv) as (j & Hj & <-).
          assert (Ly : length yF = length x).
          { pose proof HRF as E.
            assert (Hl : length d = length x). { unfold run in E. destruct (length d =? length x)%nat eqn:Q; [apply Nat.eqb_eq, Q|]. cbn in E. discriminate. }
            destruct (run_eq n oF d x WFF Hx Hl ltac:(intros C; rewrite C in HN; cbn in HN; lia)) as (h & E2 & _). rewrite E2 in E.
            destruct (adapt_all d x oF) as (o2 & [u|ex]); [|discriminate]. injection E as _ <- _ _. apply ytrace_length, Hl. }
          rewrite Ly in Hj. destruct (endless j ltac:(lia)) as (_ & _ & H). apply H, Hj. }
        eapply Rle_trans; [apply (outputs_close solve tanh exp power sum dot dot_ok solveR n oF oF' oR oR' d x yF eF wF yR eR wR WFF WFR Hx HRF HRR FL cF cR KF KR k Hk)|].
        fold (WF k) (WR k) (X k).
        assert (LX : length (X k) = n). { unfold X. rewrite map_length. unfold rows_of in Hx. rewrite Forall_forall in Hx. apply Hx, nth_In, Hk. }
        apply Rplus_le_compat; [apply Rmult_le_compat_r; [apply norm_pos|apply HC; lia]|].
        apply dot_term; auto; [apply row_len; lia|]. destruct (endless k ltac:(lia)) as (_ & H & _). eapply Rle_trans; [exact H|apply size_ceiling].
      Qed.
    End Exact.
  End Gen.

  (** two runs on the same data *)
  Lemma near_pair n m (o1 o1' o2 o2' : obj float) d x y1 e1 w1 y2 e2 w2 cF cR qq rho c alpha beta W0 :
    wf n o1 -> wf n o2 -> rows_of n x -> run d x o1 = (o1', Ok (y1, e1, w1)) -> run d x o2 = (o2', Ok (y2, e2, w2)) ->
    (is_AP o1 = false /\ is_OCNLMS o1 = false /\ forall s er u, o_ext s = o_ext o1 -> o_mu s = o_mu o1 ->
      learning_rule er u s = (s, Ok (map (fun a => PrimFloat.mul (PrimFloat.mul (cF u) a) er) u))) ->
    (is_AP o2 = false /\ is_OCNLMS o2 = false /\ forall s er u, o_ext s = o_ext o2 -> o_mu s = o_mu o2 ->
      learning_rule er u s = (s, Ok (map (fun a => PrimFloat.mul (PrimFloat.mul (cF u) a) er) u))) ->
    (Z.of_nat n <= 2 ^ 40)%Z -> Forall fin (o_w o1) -> Forall fin (o_w o2) -> norm (map val (o_w o1)) <= W0 -> norm (map val (o_w o2)) <= W0 -> W0 <= 2 ^ 100 -> 0 <= beta <= 2 ^ 302 ->
    let X k := map val (nth k x []) in let D k := val (nth k d PrimFloat.zero) in
    (forall k, (k < length x)%nat -> fin (cF (nth k x [])) /\ Forall fin (nth k x []) /\ fin (nth k d PrimFloat.zero) /\
      0 <= cR (X k) <= 2 ^ 110 /\ 0 <= qq k <= 16 * (INR n + 1) * uro /\ Rabs (val (cF (nth k x [])) - cR (X k)) <= rho k /\ rho k <= cR (X k) * qq k + eta /\
      cR (X k) * normsq (X k) <= c /\ norm (X k) <= 2 ^ 100 /\ Rabs (D k) <= 2 ^ 100 /\ cR (X k) * norm (X k) * (Rabs (D k) + 1) <= beta) ->
    0 <= c <= 2 -> (1 <= m)%nat ->
    (forall s v, (s + m <= length x)%nat -> length v = n -> alpha * normsq v <= sumn m (fun i => cR (X (s + i)%nat) * Rdot v (X (s + i)%nat) ^ 2)) ->
    let q := sqrt (1 - (2 - c) * alpha / (4 * INR m ^ 2)) in 4 * INR m * unit_err n <= 1 - q -> (forall v, length v = n -> 0 <= cR v) ->
    forall k, (k <= length x)%nat -> dist (map val (nth k (w1 ++ [o_w o1']) [])) (map val (nth k (w2 ++ [o_w o2']) [])) <=
      q ^ (k / m) * dist (map val (o_w o1)) (map val (o_w o2)) + floor_of m q (2 * jitter n m q beta W0).
  Proof.
    intros A1 A2 Hx E1 E2 K1 K2 Hn F1 F2 N1 N2 NW Hb X D HS Hc Hm Hex q Hq HG k Hk.
    pose proof (endless n m o2 o2' d x y2 e2 w2 cF cR qq rho c alpha beta W0 A2 Hx E2 K2 Hn F2 N2 NW Hb HS Hc Hm Hex Hq) as HE.
    pose proof (jitter_nonneg n m o2 c alpha beta W0 N2 Hb Hm Hq) as J.
    pose proof (near_seq n m o1 o1' d x y1 e1 w1 cF cR qq rho c alpha beta W0 A1 Hx E1 K1 Hn F1 N1 NW Hb HS Hc Hm Hex Hq HG
      (fun k => map val (nth k (w2 ++ [o_w o2']) [])) (jitter n m q beta W0) J) as NS.
    cbv beta in NS. rewrite (row_0 n o2 o2' d x y2 e2 w2 cF A2 Hx E2 K2) in NS.
    replace (2 * jitter n m q beta W0) with (jitter n m q beta W0 + jitter n m q beta W0) by ring. apply NS; [| |exact Hk].
    - intros j Hj. eapply row_len; eauto.
    - intros j Hj. destruct (HE j ltac:(lia)) as (_ & _ & H). apply H, Hj.
  Qed.
End Endless.

(** ** C119 *)
Section C119.
  Variable solve : list (list float) -> list (list float) -> option (list (list float)).
  Variables (tanh exp : float -> float) (power : float -> float -> float) (sum : list float -> float) (dot : list float -> list float -> float).
  Hypothesis dot_ok : forall u v, length u = length v -> evaluates (combine u v) (dot u v).
  Variable solveR : list rvec -> list rvec -> option (list rvec).
  #[local] Hint Extern 0 (Num float) => exact (FNumD solve tanh exp power sum dot) : typeclass_instances.
  #[local] Hint Extern 0 (Num R) => exact (RNum solveR) : typeclass_instances.

  (** data of sane size for a filter with n taps: finite numbers, inputs of norm at most xi, targets at most De *)
  Definition sane (n : nat) (xi De : R) (d : list float) (x : list (list float)) : Prop :=
    rows_of n x /\ length d = length x /\ x <> [] /\ Forall (Forall fin) x /\ Forall fin d /\ (Z.of_nat n <= 2 ^ 40)%Z /\
    (forall u, In u x -> norm (map val u) <= xi) /\ xi <= 2 ^ 100 /\ (forall v, In v d -> Rabs (val v) <= De) /\ De <= 2 ^ 100.
  (** the excitation of a window of m samples beats the rounding errors of the window: q is the factor by which the window shrinks
      the distance between two exact runs *)
  Definition beats_rounding (n m : nat) (q : R) : Prop := 1024 * INR m * (INR n + 1) * uro <= 1 - q.

  (** the whole claim about one run in binary64; [rate u]: the exact rate for the input u *)
  Definition runs_for_ever (n m : nat) (q beta W0 : R) (rate : rvec -> R) (oF : obj float) (same : obj R -> Prop) (d : list float) (x : list (list float)) : Prop :=
    exists oF' yF eF wF, run d x oF = (oF', Ok (yF, eF, wF)) /\ Forall fin yF /\ Forall fin eF /\ Forall (Forall fin) (wF ++ [o_w oF']) /\
    let W k := map val (nth k (wF ++ [o_w oF']) []) in let X k := map val (nth k x []) in
    (* bounded *)
    (forall k, (k <= length x)%nat -> norm (W k) <= 2 * (((1 + q) / 2) ^ (k / m) * W0 + room n m q beta)) /\
    (* exact arithmetic *)
    (forall oR, reachable n oR -> same oR -> exists oR' yR eR wR, run (map val d) (map (map val) x) oR = (oR', Ok (yR, eR, wR)) /\
      (forall k, (k <= length x)%nat -> dist (W k) (nth k (wR ++ [o_w oR']) []) <= floor_of m q (jitter n m q beta W0)) /\
      (forall k, (k < length x)%nat -> Rabs (val (nth k yF PrimFloat.zero) - nth k yR 0) <=
        floor_of m q (jitter n m q beta W0) * norm (X k) + 2 * INR n * (uro * (ceiling n m q beta W0 * norm (X k)) + eta))) /\
    (* a moving system with disturbed outputs *)
    (forall (Sys : nat -> rvec) p, (forall k, length (Sys k) = n) ->
      (forall k, (k < length x)%nat -> drift_at Sys k + rate (X k) * (Rabs (disturbance Sys (map (map val) x) (map val d) k) * norm (X k)) <= p) ->
      forall k, (k <= length x)%nat -> dist (W k) (Sys k) <= q ^ (k / m) * dist (map val (o_w oF)) (Sys 0%nat) + floor_of m q (jitter n m q beta W0 + p)).

  (** *** LMS *)
  Section LMS.
    Variables (n m : nat) (oF : obj float) (d : list float) (x : list (list float)) (xi De c alpha W0 : R).
    Hypothesis RF : reachable n oF.
    Hypothesis EF : o_ext oF = XLMS.
    Hypothesis Hs : sane n xi De d x.
    Hypothesis Fm : fin (o_mu oF).
    Hypothesis Fw : Forall fin (o_w oF).
    Hypothesis HW0 : norm (map val (o_w oF)) <= W0.
    Hypothesis HWb : W0 <= 2 ^ 100.
    Let mu := val (o_mu oF).
    Hypothesis Hmu : 0 < mu <= 2 ^ 100.
    Hypothesis Hc : 0 <= c < 2.
    Hypothesis Hmx : mu * (xi * xi) <= c.
    Hypothesis Hm : (1 <= m)%nat.
    Hypothesis Hex : exciting_list n m alpha (map (map val) x).
    Let q := lms_factor mu c alpha m.
    Hypothesis Hq : beats_rounding n m q.
    Let beta := mu * xi * (De + 1).

    Lemma lms_KF : is_AP oF = false /\ is_OCNLMS oF = false /\ forall s er u, o_ext s = o_ext oF -> o_mu s = o_mu oF ->
      learning_rule er u s = (s, Ok (map (fun a => PrimFloat.mul (PrimFloat.mul ((fun _ => o_mu oF) u) a) er) u)).
    Proof. unfold is_AP, is_OCNLMS. rewrite EF. repeat split. intros s er u Es Em. unfold learning_rule, bind, get. rewrite Es, Em. reflexivity. Qed.
    Lemma lms_xi0 : 0 <= xi.
    Proof. destruct Hs as (_ & _ & Hne & _ & _ & _ & HX & _). destruct x as [|x0 x']; [contradiction|]. eapply Rle_trans; [apply norm_pos|apply (HX x0 (or_introl eq_refl))]. Qed.
    Lemma lms_De0 : 0 <= De.
    Proof. destruct Hs as (_ & Hl & Hne & _ & _ & _ & _ & _ & HD & _). destruct d as [|d0 d']; [destruct x; [contradiction|discriminate]|]. eapply Rle_trans; [apply Rabs_pos|apply (HD d0 (or_introl eq_refl))]. Qed.
    Lemma lms_beta : 0 <= beta <= 2 ^ 302.
    Proof.
      pose proof lms_xi0. pose proof lms_De0. destruct Hs as (_ & _ & _ & _ & _ & _ & _ & Hxi & _ & HDe). assert (0 <= mu * xi) by (apply Rmult_le_pos; lra).
      split; [apply Rmult_le_pos; lra|]. unfold beta. apply Rle_trans with (2 ^ 100 * 2 ^ 100 * (2 * 2 ^ 100)).
      - assert (1 <= 2 ^ 100) by (apply pow_R1_Rle; lra). apply mul3; lra.
      - change (2 * 2 ^ 100) with (2 ^ 101). rewrite <- !pow_add. apply Rle_pow; [lra|leb].
    Qed.
    Lemma lms_HS k : (k < length x)%nat -> let X := map val (nth k x []) in let D := val (nth k d PrimFloat.zero) in
      fin (o_mu oF) /\ Forall fin (nth k x []) /\ fin (nth k d PrimFloat.zero) /\
      0 <= mu <= 2 ^ 110 /\ 0 <= 0 <= 16 * (INR n + 1) * uro /\ Rabs (val (o_mu oF) - mu) <= 0 /\ 0 <= mu * 0 + eta /\
      mu * normsq X <= c /\ norm X <= 2 ^ 100 /\ Rabs D <= 2 ^ 100 /\ mu * norm X * (Rabs D + 1) <= beta.
    Proof.
      intros Hk X D. pose proof lms_xi0 as X0. pose proof lms_De0 as D0. destruct Hs as (Hx & Hl & Hne & Fx & Fd & Hn & HX & Hxi & HD & HDe).
      assert (H1 : norm X <= xi) by (apply HX, nth_In, Hk). assert (H2 : Rabs D <= De) by (apply HD, nth_In; rewrite Hl; exact Hk).
      pose proof (norm_pos X) as N0. pose proof (Rabs_pos D) as A0.
      rewrite Forall_forall in Fx, Fd. pose proof uro_pos. pose proof eta_pos. pose proof (pos_INR n).
      split; [exact Fm|]. split; [apply Fx, nth_In, Hk|]. split; [apply Fd, nth_In; rewrite Hl; exact Hk|].
      split; [split; [lra|]; apply Rle_trans with (2 ^ 100); [apply Hmu|]; apply Rle_pow; [lra|leb]|]. split; [split; [lra|]; repeat apply Rmult_le_pos; lra|].
      fold mu. rewrite Rminus_diag_eq, Rabs_R0 by reflexivity. split; [lra|]. split; [lra|].
      split. { eapply Rle_trans; [|exact Hmx]. apply Rmult_le_compat_l; [lra|]. rewrite <- norm_sq. apply Rmult_le_compat; lra. }
      split; [lra|]. split; [lra|]. unfold beta. apply mul3; lra.
    Qed.
    Lemma lms_Hex s v : (s + m <= length x)%nat -> length v = n -> mu * alpha * normsq v <= sumn m (fun i => mu * Rdot v (map val (nth (s + i) x [])) ^ 2).
    Proof.
      intros H1 H2. eapply Rle_trans; [apply (excite_gain n m alpha (map (map val) x) (fun _ => mu) mu Hex); [lra|intros; lra|rewrite map_length; exact H1|exact H2]|].
      right. apply sumn_ext. intros i _. change (@nil R) with (map val []). rewrite (map_nth (map val)). reflexivity.
    Qed.
    Lemma q4 : 4 * INR m * unit_err n <= 1 - q.
    Proof. unfold beats_rounding in Hq. unfold unit_err. lra. Qed.
    Lemma lms_exists : exists oF' yF eF wF, run d x oF = (oF', Ok (yF, eF, wF)) /\ length yF = length x /\ length eF = length x /\ length wF = length x.
    Proof. destruct Hs as (Hx & Hl & Hne & _). apply (run_existsF solve tanh exp power sum dot n oF d x RF Hx Hl Hne). intros ex. unfold soft_exn. rewrite EF. auto. Qed.
    Lemma lms_for_ever : runs_for_ever n m q beta W0 (fun _ => mu) oF (fun oR => o_ext oR = XLMS /\ o_mu oR = mu /\ o_w oR = map val (o_w oF)) d x.
    Proof.
      destruct lms_exists as (oF' & yF & eF & wF & E & Ly & Le & Lw). exists oF', yF, eF, wF. split; [exact E|].
      pose proof Hs as (Hx & Hl & Hne & Fx & Fd & Hn & HX & Hxi & HD & HDe).
      pose proof (endless solve tanh exp power sum dot dot_ok n m oF oF' d x yF eF wF (fun _ => o_mu oF) (fun _ => mu) (fun _ => 0) (fun _ => 0) c (mu * alpha) beta W0
        (reachable_wf _ _ RF) Hx E lms_KF Hn Fw HW0 HWb lms_beta lms_HS ltac:(lra) Hm lms_Hex q4) as HE.
      destruct (fin_lists oF' x yF eF wF Ly Le Lw) as (Fy & Fe & Fw').
      { intros k Hk. destruct (HE k Hk) as (H1 & _ & H3). split; [exact H1|]. intros Hk'. destruct (H3 Hk') as (H4 & H5 & _). auto. }
      split; [exact Fy|]. split; [exact Fe|]. split; [exact Fw'|]. cbv zeta. split; [intros k Hk; apply HE, Hk|]. split.
      - intros oR RR (ER & Emu & Ew).
        assert (HxR : rows_of n (map (map val) x)).
        { apply Forall_forall. intros r Hr. apply in_map_iff in Hr as (r' & <- & Hr). rewrite map_length. unfold rows_of in Hx. rewrite Forall_forall in Hx. apply Hx; exact Hr. }
        destruct (run_exists solveR n oR (map val d) (map (map val) x) RR HxR) as (oR' & yR & eR & wR & HRR).
        { rewrite !map_length. exact Hl. } { intros H. apply map_eq_nil in H. contradiction. } { intros ex. unfold soft_exn. rewrite ER. auto. }
        exists oR', yR, eR, wR. split; [exact HRR|].
        apply (near_exact solve tanh exp power sum dot dot_ok n m oF oF' d x yF eF wF (fun _ => o_mu oF) (fun _ => mu) (fun _ => 0) (fun _ => 0) c (mu * alpha) beta W0
          (reachable_wf _ _ RF) Hx E lms_KF Hn Fw HW0 HWb lms_beta lms_HS ltac:(lra) Hm lms_Hex q4 ltac:(intros; lra) solveR oR oR' yR eR wR (reachable_wf _ _ RR) HRR Ew).
        unfold is_AP, is_OCNLMS. rewrite ER. repeat split. intros s er u Es Em. unfold learning_rule, bind, get. rewrite Es, Em, Emu. reflexivity.
      - intros Sys p HSy Hp.
        assert (P0 : 0 <= p).
        { assert (H0 : (0 < length x)%nat) by (destruct x; [contradiction|cbn; lia]). eapply Rle_trans; [|apply (Hp 0%nat H0)].
          apply Rplus_le_le_0_compat; [apply sqrt_pos|]. apply Rmult_le_pos; [lra|apply Rmult_le_pos; [apply Rabs_pos|apply norm_pos]]. }
        apply (near_system solve tanh exp power sum dot dot_ok n m oF oF' d x yF eF wF (fun _ => o_mu oF) (fun _ => mu) (fun _ => 0) (fun _ => 0) c (mu * alpha) beta W0
          (reachable_wf _ _ RF) Hx E lms_KF Hn Fw HW0 HWb lms_beta lms_HS ltac:(lra) Hm lms_Hex q4 ltac:(intros; lra)); auto.
    Qed.
  End LMS.

  Theorem C119_LMS : forall n m (oF : obj float) d x xi De c alpha,
    reachable n oF -> o_ext oF = XLMS -> fin (o_mu oF) -> Forall fin (o_w oF) -> norm (map val (o_w oF)) <= 2 ^ 100 -> sane n xi De d x ->
    let mu := val (o_mu oF) in 0 < mu <= 2 ^ 100 -> 0 <= c < 2 -> mu * (xi * xi) <= c -> (1 <= m)%nat -> exciting_list n m alpha (map (map val) x) ->
    let q := lms_factor mu c alpha m in beats_rounding n m q ->
    runs_for_ever n m q (mu * xi * (De + 1)) (norm (map val (o_w oF))) (fun _ => mu) oF (fun oR => o_ext oR = XLMS /\ o_mu oR = mu /\ o_w oR = map val (o_w oF)) d x.
  Proof. intros n m oF d x xi De c alpha RF EF Fm Fw HW Hs mu Hmu Hc Hmx Hm Hex q Hq. apply (lms_for_ever n m oF d x xi De c alpha); auto. lra. Qed.

  Theorem C119_LMS_start_forgotten : forall n m (o1 o2 : obj float) d x xi De c alpha W0,
    reachable n o1 -> reachable n o2 -> o_ext o1 = XLMS -> o_ext o2 = XLMS -> o_mu o2 = o_mu o1 -> fin (o_mu o1) -> Forall fin (o_w o1) -> Forall fin (o_w o2) ->
    norm (map val (o_w o1)) <= W0 -> norm (map val (o_w o2)) <= W0 -> W0 <= 2 ^ 100 -> sane n xi De d x ->
    let mu := val (o_mu o1) in 0 < mu <= 2 ^ 100 -> 0 <= c < 2 -> mu * (xi * xi) <= c -> (1 <= m)%nat -> exciting_list n m alpha (map (map val) x) ->
    let q := lms_factor mu c alpha m in beats_rounding n m q ->
    exists o1' y1 e1 w1 o2' y2 e2 w2, run d x o1 = (o1', Ok (y1, e1, w1)) /\ run d x o2 = (o2', Ok (y2, e2, w2)) /\
    forall k, (k <= length x)%nat -> dist (map val (nth k (w1 ++ [o_w o1']) [])) (map val (nth k (w2 ++ [o_w o2']) [])) <=
      q ^ (k / m) * dist (map val (o_w o1)) (map val (o_w o2)) + floor_of m q (2 * jitter n m q (mu * xi * (De + 1)) W0).
  Proof.
    intros n m o1 o2 d x xi De c alpha W0 R1 R2 X1 X2 Em Fm F1 F2 N1 N2 NW Hs mu Hmu Hc Hmx Hm Hex q Hq.
    destruct (lms_exists n o1 d x xi De R1 X1 Hs) as (o1' & y1 & e1 & w1 & E1 & Ly1 & Le1 & Lw1). destruct (lms_exists n o2 d x xi De R2 X2 Hs) as (o2' & y2 & e2 & w2 & E2 & _).
    exists o1', y1, e1, w1, o2', y2, e2, w2. split; [exact E1|]. split; [exact E2|].
    pose proof Hs as (Hx & Hl & Hne & Fx & Fd & Hn & HX & Hxi & HD & HDe). set (beta := mu * xi * (De + 1)).
    assert (K2 : is_AP o2 = false /\ is_OCNLMS o2 = false /\ forall s er u, o_ext s = o_ext o2 -> o_mu s = o_mu o2 ->
      learning_rule er u s = (s, Ok (map (fun a => PrimFloat.mul (PrimFloat.mul ((fun _ => o_mu o1) u) a) er) u))) by (rewrite <- Em; apply lms_KF, X2).
    assert (Hc2 : 0 <= c <= 2) by lra.
    apply (near_pair solve tanh exp power sum dot dot_ok n m o1 o1' o2 o2' d x y1 e1 w1 y2 e2 w2 (fun _ => o_mu o1) (fun _ => mu) (fun _ => 0) (fun _ => 0) c (mu * alpha) beta W0
      (reachable_wf _ _ R1) (reachable_wf _ _ R2) Hx E1 E2 (lms_KF o1 X1) K2 Hn F1 F2 N1 N2 NW); auto.
    - eapply lms_beta; eauto.
    - intros k Hk. eapply lms_HS; eauto.
    - intros s v. eapply lms_Hex; eauto.
    - eapply q4; eauto.
    - intros v _. lra.
  Qed.

  (** *** NLMS *)
  Section NLMS.
    Variables (n m : nat) (oF : obj float) (eps : float) (d : list float) (x : list (list float)) (xi De alpha W0 : R).
    Hypothesis RF : reachable n oF.
    Hypothesis EF : o_ext oF = XNLMS eps.
    Hypothesis Hs : sane n xi De d x.
    Hypothesis Fm : fin (o_mu oF).
    Hypothesis Fp : fin eps.
    Hypothesis Fw : Forall fin (o_w oF).
    Hypothesis HW0 : norm (map val (o_w oF)) <= W0.
    Hypothesis HWb : W0 <= 2 ^ 100.
    Let mu := val (o_mu oF).
    Hypothesis Hmu : 0 < mu < 2.
    Hypothesis Heps : / 2 ^ 100 <= val eps <= 2 ^ 100.
    Hypothesis Hm : (1 <= m)%nat.
    Hypothesis Hex : exciting_list n m alpha (map (map val) x).
    Let q := nlms_factor mu (val eps) (xi * xi) alpha m.
    Hypothesis Hq : beats_rounding n m q.
    Let beta := mu / (2 * sqrt (val eps)) * (De + 1).
    Let cF (u : list float) := PrimFloat.div (o_mu oF) (PrimFloat.add eps (dot u u)).
    Let rate (u : rvec) := mu / (val eps + normsq u).

    Lemma eps_pos : 0 < val eps.
    Proof. assert (0 < / 2 ^ 100) by (apply Rinv_0_lt_compat, pow_lt; lra). lra. Qed.
    Lemma nlms_KF : is_AP oF = false /\ is_OCNLMS oF = false /\ forall s er u, o_ext s = o_ext oF -> o_mu s = o_mu oF ->
      learning_rule er u s = (s, Ok (map (fun a => PrimFloat.mul (PrimFloat.mul (cF u) a) er) u)).
    Proof. unfold is_AP, is_OCNLMS. rewrite EF. repeat split. intros s er u Es Em. unfold learning_rule, bind, get. rewrite Es, Em. reflexivity. Qed.
    Lemma nlms_beta : 0 <= beta <= 2 ^ 302.
    Proof.
      assert (D0 : 0 <= De) by (eapply lms_De0; eauto). destruct Hs as (_ & _ & _ & _ & _ & _ & _ & Hxi & _ & HDe). set (sq := sqrt (val eps)).
      assert (Hsq0 : 0 < sq) by (apply sqrt_lt_R0, eps_pos).
      assert (Hsql : / 2 ^ 50 <= sq).
      { unfold sq. rewrite <- (sqrt_square (/ 2 ^ 50)) by (left; apply Rinv_0_lt_compat, pow_lt; lra). apply sqrt_le_1_alt. rewrite <- Rinv_mult, <- pow_add. apply Heps. }
      assert (Hcoef : 0 <= mu / (2 * sq) <= 2 ^ 50).
      { split; [apply Rmult_le_pos; [lra|left; apply Rinv_0_lt_compat; lra]|]. apply Rmult_le_reg_r with (2 * sq); [lra|]. unfold Rdiv. rewrite Rmult_assoc, Rinv_l, Rmult_1_r by lra.
        assert (2 ^ 50 * / 2 ^ 50 <= 2 ^ 50 * sq) by (apply Rmult_le_compat_l; [left; apply pow_lt; lra|exact Hsql]). rewrite Rinv_r in H by (apply pow_nonzero; lra). lra. }
      unfold beta. fold sq. split; [apply Rmult_le_pos; lra|]. apply Rle_trans with (2 ^ 50 * (2 * 2 ^ 100)).
      - assert (1 <= 2 ^ 100) by (apply pow_R1_Rle; lra). apply Rmult_le_compat; lra.
      - change (2 * 2 ^ 100) with (2 ^ 101). rewrite <- !pow_add. apply Rle_pow; [lra|leb].
    Qed.
    Lemma nlms_HS k : (k < length x)%nat -> let X := map val (nth k x []) in let D := val (nth k d PrimFloat.zero) in
      fin (cF (nth k x [])) /\ Forall fin (nth k x []) /\ fin (nth k d PrimFloat.zero) /\
      0 <= rate X <= 2 ^ 110 /\ 0 <= (kappa n (val eps) X + uro) / (1 - kappa n (val eps) X) <= 16 * (INR n + 1) * uro /\
      Rabs (val (cF (nth k x [])) - rate X) <= rate_slack n mu (val eps) X /\ rate_slack n mu (val eps) X <= rate X * ((kappa n (val eps) X + uro) / (1 - kappa n (val eps) X)) + eta /\
      rate X * normsq X <= mu /\ norm X <= 2 ^ 100 /\ Rabs D <= 2 ^ 100 /\ rate X * norm X * (Rabs D + 1) <= beta.
    Proof.
      intros Hk X D. assert (D0 : 0 <= De) by (eapply lms_De0; eauto). pose proof eps_pos as Ep. destruct Hs as (Hx & Hl & Hne & Fx & Fd & Hn & HX & Hxi & HD & HDe).
      assert (H1 : norm X <= xi) by (apply HX, nth_In, Hk). assert (H2 : Rabs D <= De) by (apply HD, nth_In; rewrite Hl; exact Hk).
      pose proof (norm_pos X) as N0. pose proof (Rabs_pos D) as A0. rewrite Forall_forall in Fx, Fd.
      assert (Lx : length (nth k x []) = n). { unfold rows_of in Hx. rewrite Forall_forall in Hx. apply Hx, nth_In, Hk. }
      assert (Fxk : Forall fin (nth k x [])) by (apply Fx, nth_In, Hk).
      destruct (nlms_rate_fin dot dot_ok n (o_mu oF) eps (nth k x []) Lx Hn Fxk Fm Fp ltac:(fold mu; lra) Heps ltac:(fold X; lra)) as (P1 & P2).
      destruct (nlms_q n (val eps) X Hn (proj1 Heps)) as (Q1 & Q2). cbv zeta in Q1, Q2.
      pose proof (normsq_nonneg X) as HQ. set (P := val eps + normsq X). assert (HP : 0 < P) by (unfold P; lra). assert (HPi : 0 < / P) by (apply Rinv_0_lt_compat; exact HP).
      assert (RX : rate X = mu * / P) by reflexivity.
      assert (G2 : rate X * norm X <= mu / (2 * sqrt (val eps))).
      { rewrite RX. unfold Rdiv. rewrite Rmult_assoc. apply Rmult_le_compat_l; [lra|]. set (sq := sqrt (val eps)). assert (Hsq0 : 0 < sq) by (apply sqrt_lt_R0, Ep).
        assert (Hsqs : sq * sq = val eps) by (apply sqrt_sqrt; lra). apply Rmult_le_reg_l with P; [exact HP|]. rewrite <- Rmult_assoc, Rinv_r, Rmult_1_l by lra.
        apply Rmult_le_reg_r with (2 * sq); [lra|]. rewrite Rmult_assoc, Rinv_l, Rmult_1_r by lra. unfold P. rewrite <- norm_sq, <- Hsqs. set (nv := norm X).
        assert (0 <= (nv - sq) * (nv - sq)) by apply Rle_0_sqr. lra. }
      assert (G0 : 0 <= rate X) by (rewrite RX; apply Rmult_le_pos; lra).
      split; [exact P2|]. split; [exact Fxk|]. split; [apply Fd, nth_In; rewrite Hl; exact Hk|].
      split.
      { split; [exact G0|]. rewrite RX. apply Rle_trans with (2 * 2 ^ 100); [|change (2 * 2 ^ 100) with (2 ^ 101); apply Rle_pow; [lra|leb]]. apply Rmult_le_compat; try lra.
        replace (2 ^ 100) with (/ / 2 ^ 100) by apply Rinv_inv. apply Rinv_le_contravar; [apply Rinv_0_lt_compat, pow_lt; lra|unfold P; lra]. }
      split; [exact Q2|].
      split. { unfold rate, cF. apply (nlms_rate dot dot_ok n (o_mu oF) eps (nth k x [])); auto; fold mu; fold X; lra. }
      split; [right; reflexivity|].
      split.
      { rewrite RX, Rmult_assoc. assert (/ P * normsq X <= 1). { apply Rmult_le_reg_l with P; [exact HP|]. rewrite <- Rmult_assoc, Rinv_r by lra. unfold P. lra. }
        rewrite <- (Rmult_1_r mu) at 2. apply Rmult_le_compat_l; lra. }
      split; [lra|]. split; [lra|]. unfold beta. apply Rmult_le_compat; try lra. apply Rmult_le_pos; [exact G0|lra].
    Qed.
    Lemma nlms_Hex s v : (s + m <= length x)%nat -> length v = n ->
      mu / (val eps + xi * xi) * alpha * normsq v <= sumn m (fun i => rate (map val (nth (s + i) x [])) * Rdot v (map val (nth (s + i) x [])) ^ 2).
    Proof.
      intros H1 H2. pose proof eps_pos as Ep. assert (X0 : 0 <= xi) by (eapply lms_xi0; eauto). destruct Hs as (Hx & Hl & Hne & _ & _ & _ & HX & _).
       assert (P0 : 0 <= xi * xi) by (apply Rmult_le_pos; lra).
      eapply Rle_trans; [apply (excite_gain n m alpha (map (map val) x) rate (mu / (val eps + xi * xi)) Hex); [| |rewrite map_length; exact H1|exact H2]|].
      - apply Rmult_le_pos; [lra|left; apply Rinv_0_lt_compat; lra].
      - intros k Hk. rewrite map_length in Hk. change (@nil R) with (map val []). rewrite (map_nth (map val)). unfold rate. apply Rmult_le_compat_l; [lra|].
        pose proof (norm_pos (map val (nth k x []))). assert (norm (map val (nth k x [])) <= xi) by (apply HX, nth_In, Hk).
        apply Rinv_le_contravar; [pose proof (normsq_nonneg (map val (nth k x []))); lra|]. apply Rplus_le_compat_l. rewrite <- norm_sq. apply Rmult_le_compat; lra.
      - right. apply sumn_ext. intros i _. change (@nil R) with (map val []). rewrite (map_nth (map val)). reflexivity.
    Qed.
    Lemma nlms_rate_nonneg v : length v = n -> 0 <= rate v.
    Proof. intros _. pose proof eps_pos. pose proof (normsq_nonneg v). apply Rmult_le_pos; [lra|left; apply Rinv_0_lt_compat; lra]. Qed.
    Lemma q4n : 4 * INR m * unit_err n <= 1 - q.
    Proof. unfold beats_rounding in Hq. unfold unit_err. lra. Qed.
    Lemma nlms_exists : exists oF' yF eF wF, run d x oF = (oF', Ok (yF, eF, wF)) /\ length yF = length x /\ length eF = length x /\ length wF = length x.
    Proof. destruct Hs as (Hx & Hl & Hne & _). apply (run_existsF solve tanh exp power sum dot n oF d x RF Hx Hl Hne). intros ex. unfold soft_exn. rewrite EF. auto. Qed.
    Lemma nlms_for_ever : runs_for_ever n m q beta W0 rate oF (fun oR => o_ext oR = XNLMS (val eps) /\ o_mu oR = mu /\ o_w oR = map val (o_w oF)) d x.
    Proof.
      destruct nlms_exists as (oF' & yF & eF & wF & E & Ly & Le & Lw). exists oF', yF, eF, wF. split; [exact E|].
      pose proof Hs as (Hx & Hl & Hne & Fx & Fd & Hn & HX & Hxi & HD & HDe).
      set (al := mu / (val eps + xi * xi) * alpha). set (qq := fun k : nat => (kappa n (val eps) (map val (nth k x [])) + uro) / (1 - kappa n (val eps) (map val (nth k x [])))).
      set (rho := fun k : nat => rate_slack n mu (val eps) (map val (nth k x []))).
      pose proof (endless solve tanh exp power sum dot dot_ok n m oF oF' d x yF eF wF cF rate qq rho mu al beta W0
        (reachable_wf _ _ RF) Hx E nlms_KF Hn Fw HW0 HWb nlms_beta nlms_HS ltac:(lra) Hm nlms_Hex q4n) as HE.
      destruct (fin_lists oF' x yF eF wF Ly Le Lw) as (Fy & Fe & Fw').
      { intros k Hk. destruct (HE k Hk) as (H1 & _ & H3). split; [exact H1|]. intros Hk'. destruct (H3 Hk') as (H4 & H5 & _). auto. }
      split; [exact Fy|]. split; [exact Fe|]. split; [exact Fw'|]. cbv zeta. split; [intros k Hk; apply HE, Hk|]. split.
      - intros oR RR (ER & Emu & Ew).
        assert (HxR : rows_of n (map (map val) x)).
        { apply Forall_forall. intros r Hr. apply in_map_iff in Hr as (r' & <- & Hr). rewrite map_length. unfold rows_of in Hx. rewrite Forall_forall in Hx. apply Hx; exact Hr. }
        destruct (run_exists solveR n oR (map val d) (map (map val) x) RR HxR) as (oR' & yR & eR & wR & HRR).
        { rewrite !map_length. exact Hl. } { intros H. apply map_eq_nil in H. contradiction. } { intros ex. unfold soft_exn. rewrite ER. auto. }
        exists oR', yR, eR, wR. split; [exact HRR|].
        apply (near_exact solve tanh exp power sum dot dot_ok n m oF oF' d x yF eF wF cF rate qq rho mu al beta W0
          (reachable_wf _ _ RF) Hx E nlms_KF Hn Fw HW0 HWb nlms_beta nlms_HS ltac:(lra) Hm nlms_Hex q4n nlms_rate_nonneg solveR oR oR' yR eR wR (reachable_wf _ _ RR) HRR Ew).
        unfold is_AP, is_OCNLMS. rewrite ER. repeat split. intros s er u Es Em. unfold learning_rule, bind, get. rewrite Es, Em, Emu. reflexivity.
      - intros Sys p HSy Hp.
        assert (P0 : 0 <= p).
        { assert (H0 : (0 < length x)%nat) by (destruct x; [contradiction|cbn; lia]). eapply Rle_trans; [|apply (Hp 0%nat H0)].
          apply Rplus_le_le_0_compat; [apply sqrt_pos|]. apply Rmult_le_pos; [|apply Rmult_le_pos; [apply Rabs_pos|apply norm_pos]].
          apply nlms_rate_nonneg. rewrite map_length. unfold rows_of in Hx. rewrite Forall_forall in Hx. apply Hx, nth_In, H0. }
        apply (near_system solve tanh exp power sum dot dot_ok n m oF oF' d x yF eF wF cF rate qq rho mu al beta W0
          (reachable_wf _ _ RF) Hx E nlms_KF Hn Fw HW0 HWb nlms_beta nlms_HS ltac:(lra) Hm nlms_Hex q4n nlms_rate_nonneg); auto.
    Qed.
  End NLMS.

  Theorem C119_NLMS : forall n m (oF : obj float) eps d x xi De alpha,
    reachable n oF -> o_ext oF = XNLMS eps -> fin (o_mu oF) -> fin eps -> Forall fin (o_w oF) -> norm (map val (o_w oF)) <= 2 ^ 100 -> sane n xi De d x ->
    let mu := val (o_mu oF) in 0 < mu < 2 -> / 2 ^ 100 <= val eps <= 2 ^ 100 -> (1 <= m)%nat -> exciting_list n m alpha (map (map val) x) ->
    let q := nlms_factor mu (val eps) (xi * xi) alpha m in beats_rounding n m q ->
    runs_for_ever n m q (mu / (2 * sqrt (val eps)) * (De + 1)) (norm (map val (o_w oF))) (fun u => mu / (val eps + normsq u)) oF
      (fun oR => o_ext oR = XNLMS (val eps) /\ o_mu oR = mu /\ o_w oR = map val (o_w oF)) d x.
  Proof. intros n m oF eps d x xi De alpha RF EF Fm Fp Fw HW Hs mu Hmu He Hm Hex q Hq. eapply nlms_for_ever; eauto. lra. Qed.

  Theorem C119_NLMS_start_forgotten : forall n m (o1 o2 : obj float) eps d x xi De alpha W0,
    reachable n o1 -> reachable n o2 -> o_ext o1 = XNLMS eps -> o_ext o2 = XNLMS eps -> o_mu o2 = o_mu o1 -> fin (o_mu o1) -> fin eps -> Forall fin (o_w o1) -> Forall fin (o_w o2) ->
    norm (map val (o_w o1)) <= W0 -> norm (map val (o_w o2)) <= W0 -> W0 <= 2 ^ 100 -> sane n xi De d x ->
    let mu := val (o_mu o1) in 0 < mu < 2 -> / 2 ^ 100 <= val eps <= 2 ^ 100 -> (1 <= m)%nat -> exciting_list n m alpha (map (map val) x) ->
    let q := nlms_factor mu (val eps) (xi * xi) alpha m in beats_rounding n m q ->
    exists o1' y1 e1 w1 o2' y2 e2 w2, run d x o1 = (o1', Ok (y1, e1, w1)) /\ run d x o2 = (o2', Ok (y2, e2, w2)) /\
    forall k, (k <= length x)%nat -> dist (map val (nth k (w1 ++ [o_w o1']) [])) (map val (nth k (w2 ++ [o_w o2']) [])) <=
      q ^ (k / m) * dist (map val (o_w o1)) (map val (o_w o2)) + floor_of m q (2 * jitter n m q (mu / (2 * sqrt (val eps)) * (De + 1)) W0).
  Proof.
    intros n m o1 o2 eps d x xi De alpha W0 R1 R2 X1 X2 Em Fm Fp F1 F2 N1 N2 NW Hs mu Hmu He Hm Hex q Hq.
    destruct (nlms_exists n o1 eps d x xi De R1 X1 Hs) as (o1' & y1 & e1 & w1 & E1 & Ly1 & Le1 & Lw1). destruct (nlms_exists n o2 eps d x xi De R2 X2 Hs) as (o2' & y2 & e2 & w2 & E2 & _).
    exists o1', y1, e1, w1, o2', y2, e2, w2. split; [exact E1|]. split; [exact E2|].
    pose proof Hs as (Hx & Hl & Hne & Fx & Fd & Hn & HX & Hxi & HD & HDe). set (beta := mu / (2 * sqrt (val eps)) * (De + 1)).
    assert (K2 : is_AP o2 = false /\ is_OCNLMS o2 = false /\ forall s er u, o_ext s = o_ext o2 -> o_mu s = o_mu o2 ->
      learning_rule er u s = (s, Ok (map (fun a => PrimFloat.mul (PrimFloat.mul ((fun u => PrimFloat.div (o_mu o1) (PrimFloat.add eps (dot u u))) u) a) er) u))) by (rewrite <- Em; apply nlms_KF, X2).
    assert (Hc2 : 0 <= mu <= 2) by lra.
    apply (near_pair solve tanh exp power sum dot dot_ok n m o1 o1' o2 o2' d x y1 e1 w1 y2 e2 w2 (fun u => PrimFloat.div (o_mu o1) (PrimFloat.add eps (dot u u))) (fun u => mu / (val eps + normsq u))
      (fun k : nat => (kappa n (val eps) (map val (nth k x [])) + uro) / (1 - kappa n (val eps) (map val (nth k x [])))) (fun k : nat => rate_slack n mu (val eps) (map val (nth k x [])))
      mu (mu / (val eps + xi * xi) * alpha) beta W0
      (reachable_wf _ _ R1) (reachable_wf _ _ R2) Hx E1 E2 (nlms_KF o1 eps X1) K2 Hn F1 F2 N1 N2 NW); auto.
    - eapply nlms_beta; eauto.
    - intros k Hk. eapply nlms_HS; eauto.
    - intros s v. eapply nlms_Hex; eauto.
    - eapply q4n; eauto.
    - intros v. eapply nlms_rate_nonneg; eauto.
  Qed.

End C119.

(** the hypotheses are met: one hundred samples of alternating unit inputs, targets 1, mu = 1/2; the windows of two samples beat rounding *)
Definition falt (k : nat) : list float := if Nat.even k then [PrimFloat.one; PrimFloat.zero] else [PrimFloat.zero; PrimFloat.one].
Definition fhalf : float := PrimFloat.div PrimFloat.one PrimFloat.two.
Example C119_hypotheses :
  let x := map falt (seq 0 100) in let d := repeat PrimFloat.one 100 in
  let oL := mkObj [PrimFloat.zero; PrimFloat.zero] 2 fhalf None XLMS in let oN := mkObj [PrimFloat.zero; PrimFloat.zero] 2 fhalf None (XNLMS PrimFloat.one) in
  (forall u v, length u = length v -> evaluates (combine u v) (plain_dot u v)) /\
  @reachable _ round_num 2 oL /\ @reachable _ round_num 2 oN /\ fin fhalf /\ fin PrimFloat.one /\ Forall fin (o_w oL) /\ norm (map val (o_w oL)) <= 2 ^ 100 /\
  sane 2 1 1 d x /\ 0 < val fhalf <= 2 ^ 100 /\ 0 < val fhalf < 2 /\ val fhalf * (1 * 1) <= / 2 /\ / 2 ^ 100 <= val PrimFloat.one <= 2 ^ 100 /\
  exciting_list 2 2 1 (map (map val) x) /\ beats_rounding 2 2 (lms_factor (val fhalf) (/ 2) 1 2) /\ beats_rounding 2 2 (nlms_factor (val fhalf) (val PrimFloat.one) (1 * 1) 1 2).
Proof.
  intros x d oL oN.
  assert (V1 : val PrimFloat.one = 1). { unfold val. change (Prim2SF PrimFloat.one) with (S754_finite false 4503599627370496 (-52)). cbn [powerRZ]. change (Pos.to_nat 52) with 52%nat. field. }
  assert (VH : val fhalf = / 2). { rewrite val_Q. replace (valQ fhalf) with (4503599627370496 # 9007199254740992) by (vm_compute; reflexivity). unfold Q2R. cbn [Qnum Qden]. lra. }
  assert (V0 : val PrimFloat.zero = 0) by reflexivity.
  assert (P1 : 1 <= 2 ^ 100) by (apply pow_R1_Rle; lra).
  assert (Hv : map (map val) x = first 100 alternating).
  { unfold x, first. rewrite map_map. apply map_ext. intros k. unfold falt, alternating. destruct (Nat.even k); cbn [map]; rewrite V1, V0; reflexivity. }
  assert (Hin : forall u, In u x -> exists k, u = falt k) by (intros u Hu; unfold x in Hu; apply in_map_iff in Hu as (k & <- & _); eauto).
  assert (U : uro <= / 2 ^ 52) by (unfold uro; apply Rinv_le_contravar; [apply pow_lt; lra|apply Rle_pow; [lra|leb]]).
  assert (U' : 1024 * INR 2 * (INR 2 + 1) * uro <= / 2 ^ 20).
  { change (INR 2) with 2. assert (E : / 2 ^ 52 = / 2 ^ 20 * / 2 ^ 32) by (rewrite <- Rinv_mult, <- pow_add; reflexivity).
    assert (0 < / 2 ^ 20) by (apply Rinv_0_lt_compat, pow_lt; lra). assert (/ 2 ^ 32 <= / 6144). { apply Rinv_le_contravar; [lra|]. apply Rle_trans with (2 ^ 13); [lra|apply Rle_pow; [lra|leb]]. }
    assert (/ 2 ^ 20 * / 2 ^ 32 <= / 2 ^ 20 * / 6144) by (apply Rmult_le_compat_l; lra). lra. }
  assert (Q : forall t, 0 < t <= 1 -> t / 2 <= 1 - sqrt (1 - t)).
  { intros t Ht. pose proof (sqrt_pos (1 - t)). assert (E : sqrt (1 - t) * sqrt (1 - t) = 1 - t) by (apply sqrt_sqrt; lra). assert (0 <= (1 - sqrt (1 - t)) * (1 - sqrt (1 - t))) by apply Rle_0_sqr. lra. }
  assert (I20 : / 2 ^ 20 <= / 2 ^ 10) by (apply Rinv_le_contravar; [apply pow_lt; lra|apply Rle_pow; [lra|leb]]).
  assert (I10 : / 2 ^ 10 = / 1024) by (f_equal; lra).
  split; [exact plain_dot_ok|].
  split. { apply (@reach_new _ round_num 2 (fun k => repeat PrimFloat.zero k) KLMS (mkKw (Some 2%Z) (Some fhalf) (Some (WStr "zeros")) None None None None None None None None false)); [intros k; apply repeat_length|split; discriminate|reflexivity|reflexivity]. }
  split. { apply (@reach_new _ round_num 2 (fun k => repeat PrimFloat.zero k) KNLMS (mkKw (Some 2%Z) (Some fhalf) (Some (WStr "zeros")) (Some PrimFloat.one) None None None None None None None false)); [intros k; apply repeat_length|split; discriminate|reflexivity|reflexivity]. }
  split; [apply finb_ok; vm_compute; reflexivity|]. split; [apply finb_ok; vm_compute; reflexivity|]. split; [apply finb_all; vm_compute; reflexivity|].
  split. { unfold oL. cbn [o_w map]. rewrite V0. unfold norm. replace (normsq [0; 0]) with 0 by (unfold normsq; cbn; ring). rewrite sqrt_0. lra. }
  split.
  { split; [apply Forall_forall; intros u Hu; destruct (Hin u Hu) as (k & ->); unfold falt; destruct (Nat.even k); reflexivity|]. split; [reflexivity|]. split; [discriminate|].
    split; [apply Forall_forall; intros u Hu; destruct (Hin u Hu) as (k & ->); unfold falt; destruct (Nat.even k); apply finb_all; vm_compute; reflexivity|].
    split; [apply finb_all; vm_compute; reflexivity|]. split; [vm_compute; discriminate|].
    split. { intros u Hu. destruct (Hin u Hu) as (k & ->). unfold falt, norm. destruct (Nat.even k); cbn [map]; rewrite V1, V0;
      [replace (normsq [1; 0]) with 1 by (unfold normsq; cbn; ring)|replace (normsq [0; 1]) with 1 by (unfold normsq; cbn; ring)]; rewrite sqrt_1; lra. }
    split; [exact P1|]. split; [|exact P1]. intros v Hw. apply repeat_spec in Hw. subst v. rewrite V1, Rabs_R1. lra. }
  split; [rewrite VH; lra|]. split; [rewrite VH; lra|]. split; [rewrite VH; lra|].
  split; [rewrite V1; split; [|exact P1]; apply Rle_trans with (/ 1); [apply Rinv_le_contravar; lra|right; apply Rinv_1]|].
  split.
  { rewrite Hv. destruct alternating_exciting as (Ha & He). split; [exact Ha|]. intros j v Hj Lv. eapply Rle_trans; [apply (He j v Lv)|]. rewrite total_sumn. right.
    apply sumn_ext. intros i Hi. rewrite first_length in Hj. rewrite first_nth by lia. reflexivity. }
  split; unfold beats_rounding; (eapply Rle_trans; [exact U'|]).
  - unfold lms_factor. rewrite VH. change (INR 2) with 2. eapply Rle_trans; [|apply Q; lra]. lra.
  - unfold nlms_factor. rewrite VH, V1. change (INR 2) with 2. eapply Rle_trans; [|apply Q; lra]. lra.
Qed.
