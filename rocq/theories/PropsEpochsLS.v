(** C107, continued: training LMS in epochs with a small step size ends near the least-squares fit. *)
From Coq Require Import Reals Lra Psatz.
From Verif Require Import Py Num Numpy Filters Registry Spec StructProofs RunProofs Reach RVec RFilter RMat
  PropsStability PropsAlgebra PropsNoise PropsTracking PropsAPNoise PropsEpochs PropsOutlier.
Open Scope R_scope.

(** ** Specification *)
(** the sum of squared errors of the weights u on the data *)
Definition sse (d : rvec) (x : list rvec) (u : rvec) : R := sumn (length x) (fun i => (nth i d 0 - Rdot u (nth i x [])) ^ 2).
(** least-squares weights *)
Definition least_squares (n : nat) (d : rvec) (x : list rvec) (u : rvec) : Prop :=
  length u = n /\ forall v, length v = n -> sse d x u <= sse d x v.
(** total power of the inputs; total size of the residuals of u, each weighted with the size of its input *)
Definition power (x : list rvec) : R := sumn (length x) (fun i => normsq (nth i x [])).
Definition residue (d : rvec) (x : list rvec) (u : rvec) : R := sumn (length x) (fun i => Rabs (nth i d 0 - Rdot u (nth i x [])) * norm (nth i x [])).

Lemma normal_equations n d x u : rows_of n x -> least_squares n d x u -> forall v, length v = n ->
  sumn (length x) (fun i => (nth i d 0 - Rdot u (nth i x [])) * Rdot v (nth i x [])) = 0.
Proof.
  intros Hx (Lu & Hm) v Lv. set (N := length x) in *. set (S1 := sumn N _). set (Q := sumn N (fun i => Rdot v (nth i x []) ^ 2)).
  assert (Q0 : 0 <= Q) by (apply sumn_nonneg; intros; apply pow2_ge_0). set (t := S1 / (Q + 1)).
  pose proof (Hm (vadd u (vsc t v)) ltac:(apply vadd_length; rewrite ?vsc_length; auto)) as H. unfold sse in H. fold N in H.
  assert (E : sumn N (fun i => (nth i d 0 - Rdot (vadd u (vsc t v)) (nth i x [])) ^ 2) = sumn N (fun i => (nth i d 0 - Rdot u (nth i x [])) ^ 2) - 2 * t * S1 + t ^ 2 * Q).
  { unfold S1, Q. rewrite <- !sumn_scal, <- sumn_minus, <- sumn_plus. apply sumn_ext. intros i Hi. assert (L : length (nth i x []) = n) by (apply nth_rows; auto).
    rewrite Rdot_vadd_l by (rewrite ?vsc_length; congruence). rewrite Rdot_vsc_l. ring. }
  rewrite E in H. assert (K : 2 * t * S1 - t ^ 2 * Q <= 0) by lra.
  replace (2 * t * S1 - t ^ 2 * Q) with (t ^ 2 * (Q + 2)) in K by (unfold t; field; lra).
  assert (T : t ^ 2 = 0). { apply Rle_antisym; [|apply pow2_ge_0]. apply Rmult_le_reg_r with (Q + 2); [lra|]. lra. }
  assert (t = 0) by (apply Rsqr_0_uniq; unfold Rsqr; lra). replace S1 with (t * (Q + 1)) by (unfold t; field; lra). rewrite H0. ring.
Qed.

Lemma combine_firstn_S : forall k (d : rvec) (x : list rvec), (k < length x)%nat -> length d = length x ->
  combine (firstn (S k) d) (firstn (S k) x) = combine (firstn k d) (firstn k x) ++ [(nth k d 0, nth k x [])].
Proof.
  induction k as [|k IH]; intros [|t d] [|z x] Hk Hl; cbn [length] in *; try lia; [reflexivity|].
  cbn [firstn combine nth app]. f_equal. apply (IH d x); lia.
Qed.

Section Fixed.
  Variables (n : nat) (mu alpha : R) (d : rvec) (x : list rvec) (w0 u : rvec).
  Notation N := (length x).
  Notation X2 := (power x).
  Hypotheses (Hmu : 0 < mu) (Ha : 0 < alpha) (Hx : rows_of n x) (Hl : length d = length x) (L0 : length w0 = n).
  Hypothesis HLS : least_squares n d x u.
  Hypothesis Hex : forall v, length v = n -> alpha * normsq v <= sumn N (fun i => Rdot v (nth i x []) ^ 2).
  Hypothesis Hfix : pass (gain_of XLMS mu) d x w0 = w0.
  Hypotheses (Hs1 : 2 * mu * X2 <= 1) (Hs2 : 4 * mu * X2 ^ 2 <= alpha).
  Let W k := pass (gain_of XLMS mu) (firstn k d) (firstn k x) w0.
  Let xi k := nth k x [].
  Let Er k := nth k d 0 - Rdot (W k) (xi k).
  Let Tt := sumn N (fun i => Rabs (Er i) * norm (xi i)).
  Let del := vsub w0 u.

  Lemma W_S k : (k < N)%nat -> W (S k) = vadd (W k) (vsc (mu * Er k) (xi k)).
  Proof.
    intros Hk. unfold W, pass. assert (Ec : combine (firstn (S k) d) (firstn (S k) x) = combine (firstn k d) (firstn k x) ++ [(nth k d 0, xi k)]).
    { apply combine_firstn_S; auto. }
    rewrite Ec, fold_left_app. reflexivity.
  Qed.
  Lemma xi_len k : (k < N)%nat -> length (xi k) = n. Proof. intros H. apply nth_rows; auto. Qed.
  Lemma W_len k : (k <= N)%nat -> length (W k) = n.
  Proof. induction k as [|k IH]; intros Hk; [unfold W; destruct d, x; exact L0|]. rewrite W_S by lia. apply vadd_length; [apply IH; lia|rewrite vsc_length; apply xi_len; lia]. Qed.
  Lemma W_0 : W 0 = w0. Proof. reflexivity. Qed.
  Lemma W_N : W N = w0. Proof. unfold W. rewrite <- Hl at 1. rewrite !firstn_all. exact Hfix. Qed.
  Lemma T_part k : (k <= N)%nat -> sumn k (fun i => Rabs (Er i) * norm (xi i)) <= Tt.
  Proof.
    intros Hk. unfold Tt. replace (length x) with (k + (length x - k))%nat by lia. rewrite PropsRLSRate.sumn_split.
    assert (0 <= sumn (length x - k) (fun i => Rabs (Er (k + i)) * norm (xi (k + i)))) by (apply sumn_nonneg; intros; apply Rmult_le_pos; [apply Rabs_pos|apply norm_pos]). lra.
  Qed.
  Lemma W_near k : (k <= N)%nat -> norm (vsub (W k) w0) <= mu * Tt.
  Proof.
    intros Hk. apply Rle_trans with (mu * sumn k (fun i => Rabs (Er i) * norm (xi i))); [|apply Rmult_le_compat_l; [lra|apply T_part; exact Hk]].
    induction k as [|k IH]; [rewrite W_0, <- dist_norm; unfold dist, distsq; rewrite normsq_vsub by reflexivity; unfold normsq; replace (Rdot w0 w0 - 2 * Rdot w0 w0 + Rdot w0 w0) with 0 by ring; rewrite sqrt_0; cbn [sumn]; lra|].
    specialize (IH ltac:(lia)). rewrite <- dist_norm in *. assert (L1 := W_len k ltac:(lia)). assert (L2 := W_len (S k) Hk). assert (L3 := xi_len k ltac:(lia)).
    eapply Rle_trans; [apply (dist_triangle _ (W k) _ n); auto|]. rewrite (W_S k) by lia. rewrite (PropsOutlier.moved (W k) _ (xi k) n L1 L3).
    cbn [sumn]. rewrite Rabs_mult, (Rabs_right mu) by lra. lra.
  Qed.
  Lemma W_sum v k : (k <= N)%nat -> length v = n -> Rdot (W k) v - Rdot w0 v = mu * sumn k (fun i => Er i * Rdot v (xi i)).
  Proof.
    intros Hk Lv. induction k as [|k IH]; [rewrite W_0; cbn [sumn]; ring|]. specialize (IH ltac:(lia)). rewrite W_S by lia.
    rewrite Rdot_vadd_l by (rewrite ?vsc_length, ?W_len, ?xi_len by lia; auto). rewrite Rdot_vsc_l. cbn [sumn]. rewrite (Rdot_comm (xi k)). lra.
  Qed.
  Lemma fixed_near : dist w0 u <= 4 * mu * X2 * residue d x u / alpha.
  Proof.
    pose proof (proj1 HLS) as Lu. assert (Ld : length del = n) by (apply vsub_length; auto). pose proof (normal_equations n d x u Hx HLS del Ld) as NE.
    assert (Z : sumn N (fun i => Er i * Rdot del (xi i)) = 0).
    { pose proof (W_sum del N (le_n _) Ld) as H. rewrite W_N in H. apply Rmult_eq_reg_l with mu; lra. }
    assert (T0 : 0 <= Tt) by (apply sumn_nonneg; intros; apply Rmult_le_pos; [apply Rabs_pos|apply norm_pos]).
    assert (P0 : 0 <= X2) by (apply sumn_nonneg; intros; apply normsq_nonneg). assert (B0 : 0 <= residue d x u) by (apply sumn_nonneg; intros; apply Rmult_le_pos; [apply Rabs_pos|apply norm_pos]).
    rewrite dist_norm. change (vsub w0 u) with del. pose proof (norm_pos del) as D0.
    assert (EE : forall i, (i < N)%nat -> Er i = (nth i d 0 - Rdot u (xi i)) - Rdot del (xi i) - Rdot (vsub (W i) w0) (xi i)).
    { intros i Hi. unfold del. rewrite !Rdot_vsub_l by (rewrite ?W_len, ?xi_len by lia; auto; congruence). unfold Er. ring. }
    assert (Cr : forall i, (i < N)%nat -> Rabs (Rdot (vsub (W i) w0) (xi i)) <= mu * Tt * norm (xi i)).
    { intros i Hi. eapply Rle_trans; [apply abs_dot'|]. apply Rmult_le_compat_r; [apply norm_pos|apply W_near; lia]. }
    (* the weighted errors *)
    assert (HT : Tt <= residue d x u + X2 * (norm del + mu * Tt)).
    { unfold Tt at 1, residue, power. rewrite <- sumn_scal_r, <- sumn_plus. apply sumn_le. intros i Hi. fold (xi i). rewrite EE by exact Hi. pose proof (norm_pos (xi i)) as Nx. rewrite <- norm_sq.
      assert (A : Rabs (nth i d 0 - Rdot u (xi i) - Rdot del (xi i) - Rdot (vsub (W i) w0) (xi i)) <= Rabs (nth i d 0 - Rdot u (xi i)) + norm del * norm (xi i) + mu * Tt * norm (xi i)).
      { unfold Rminus at 1 2. eapply Rle_trans; [apply Rabs_triang|]. rewrite Rabs_Ropp. apply Rplus_le_compat; [|apply Cr; exact Hi]. eapply Rle_trans; [apply Rabs_triang|]. rewrite Rabs_Ropp. apply Rplus_le_compat_l. apply abs_dot'. }
      replace (Rabs (nth i d 0 - Rdot u (xi i)) * norm (xi i) + norm (xi i) * norm (xi i) * (norm del + mu * Tt)) with ((Rabs (nth i d 0 - Rdot u (xi i)) + norm del * norm (xi i) + mu * Tt * norm (xi i)) * norm (xi i)) by ring.
      apply Rmult_le_compat_r; auto. }
    (* the energy of the difference *)
    assert (HE : sumn N (fun i => Rdot del (xi i) ^ 2) <= mu * Tt * X2 * norm del).
    { assert (E1 : sumn N (fun i => Rdot del (xi i) ^ 2) = - sumn N (fun i => Rdot (vsub (W i) w0) (xi i) * Rdot del (xi i))).
      { assert (E2 : sumn N (fun i => Er i * Rdot del (xi i)) = sumn N (fun i => (nth i d 0 - Rdot u (xi i)) * Rdot del (xi i)) - sumn N (fun i => Rdot del (xi i) ^ 2) - sumn N (fun i => Rdot (vsub (W i) w0) (xi i) * Rdot del (xi i))).
        { rewrite <- !sumn_minus. apply sumn_ext. intros i Hi. rewrite EE by exact Hi. ring. }
        unfold xi in *. rewrite NE in E2. rewrite Z in E2. lra. }
      rewrite E1. replace (- sumn N (fun i => Rdot (vsub (W i) w0) (xi i) * Rdot del (xi i))) with (sumn N (fun i => (-1) * (Rdot (vsub (W i) w0) (xi i) * Rdot del (xi i)))) by (rewrite sumn_scal; ring).
      replace (mu * Tt * X2 * norm del) with (sumn N (fun i => normsq (xi i) * (mu * Tt * norm del))) by (rewrite sumn_scal_r; unfold power, xi; ring).
      apply sumn_le. intros i Hi. rewrite <- norm_sq. pose proof (norm_pos (xi i)) as Nx. pose proof (Cr i Hi) as C1. pose proof (abs_dot' del (xi i)) as C2. set (a := Rdot (vsub (W i) w0) (xi i)) in *. set (b := Rdot del (xi i)) in *.
      pose proof (Rle_abs (-1 * (a * b))) as A. rewrite !Rabs_mult in A. replace (Rabs (-1)) with 1 in A by (unfold Rabs; destruct (Rcase_abs (-1)); lra).
      assert (Rabs a * Rabs b <= mu * Tt * norm (xi i) * (norm del * norm (xi i))) by (apply Rmult_le_compat; auto using Rabs_pos). lra. }
    pose proof (Hex del Ld) as HX. unfold xi in HE. rewrite <- norm_sq in HX.
    assert (K1 : alpha * norm del <= mu * Tt * X2).
    { destruct D0 as [D0|D0]; [|rewrite <- D0; rewrite Rmult_0_r; apply Rmult_le_pos; [apply Rmult_le_pos; lra|exact P0]]. apply Rmult_le_reg_r with (norm del); [exact D0|]. lra. }
    set (B := residue d x u) in *. set (D := norm del) in *. set (X := X2) in *. clearbody B D X. 
    (* Tt <= 2 (B + X D) *)
    assert (K2 : Tt <= 2 * (B + X * D)).
    { assert (2 * mu * X * Tt <= 1 * Tt) by (apply Rmult_le_compat_r; auto). lra. }
    assert (M0 : 0 <= mu * X) by (apply Rmult_le_pos; lra).
    assert (K3 : mu * Tt * X <= mu * X * (2 * (B + X * D))) by (replace (mu * Tt * X) with (mu * X * Tt) by ring; apply Rmult_le_compat_l; auto).
    assert (K4 : 4 * mu * X ^ 2 * D <= alpha * D) by (apply Rmult_le_compat_r; auto).
    apply Rmult_le_reg_r with alpha; [exact Ha|]. replace (4 * mu * X * B / alpha * alpha) with (4 * mu * X * B) by (field; lra). lra.
  Qed.
End Fixed.

Section S.
  Variable solve : list rvec -> list rvec -> option (list rvec).
  #[local] Hint Extern 0 (Num R) => exact (RNum solve) : typeclass_instances.
  Notation obj := (obj R).

  (** the number of epochs makes the first term vanish, the step size the second *)
  Theorem C107_small_step : forall n mu x alpha, 0 < mu -> rows_of n x -> x <> [] -> 0 < alpha ->
    (forall v, length v = n -> alpha * normsq v <= sumn (length x) (fun i => Rdot v (nth i x []) ^ 2)) ->
    2 * mu * power x <= 1 -> 4 * mu * power x ^ 2 <= alpha ->
    exists rho, 0 <= rho < 1 /\ forall (o : obj) d u, filter_of solve n XLMS mu o -> length d = length x -> least_squares n d x u ->
      exists K, forall E, dist (o_w (after_epochs solve E d x o)) u <= rho ^ E * K + mu * (4 * power x * residue d x u / alpha).
  Proof.
    intros n mu x alpha Hmu Hx Hne Ha Hex H1 H2.
    assert (Hs : stable_for XLMS mu x).
    { split; [exact Hmu|]. intros v Hv. apply (In_nth _ _ ([] : rvec)) in Hv as (i & Hi & <-).
      pose proof (PropsDetection.sumn_ge_term (length x) (fun i => normsq (nth i x [])) i ltac:(intros; apply normsq_nonneg) Hi) as G. cbv beta in G. unfold power in H1.
      assert (mu * normsq (nth i x []) <= mu * sumn (length x) (fun i => normsq (nth i x []))) by (apply Rmult_le_compat_l; lra). lra. }
    pose proof (stable_good n XLMS mu x Hs Hx) as HF. destruct (contraction n (gain_of XLMS mu) x HF) as (rho & Hrho & Hcon).
    exists rho. split; [exact Hrho|]. intros o d u Ho Hl HLS. assert (L0 : length (o_w o) = n) by (apply reachable_wf; apply Ho).
    set (lim := limit n (gain_of XLMS mu) x HF rho Hrho Hcon d Hl (o_w o) L0). assert (LL : length lim = n) by apply limit_length.
    assert (Fx : pass (gain_of XLMS mu) d x lim = lim) by apply limit_fixed.
    pose proof (fixed_near n mu alpha d x lim u Hmu Ha Hx Hl LL HLS Hex Fx H1 H2) as HN.
    exists (dist (o_w o) lim). intros E. rewrite (proj1 (epochs_pass solve n XLMS mu o d x E Hs Ho Hx Hl Hne)).
    eapply Rle_trans; [apply (dist_triangle _ lim _ n); auto; [apply ap_length; auto|apply HLS]|].
    apply Rplus_le_compat; [apply limit_rate|]. replace (mu * (4 * power x * residue d x u / alpha)) with (4 * mu * power x * residue d x u / alpha) by (field; lra). exact HN.
  Qed.

  (** two weights, three samples that no weights fit: the first and the third have the same input and the targets 1 and -1 *)
  Example C107_small_step_hypotheses : let x := [[1; 0]; [0; 1]; [1; 0]] in let d := [1; 2; -1] in
    rows_of (T := R) 2 x /\ (forall v, length v = 2%nat -> 1 * normsq v <= sumn (length x) (fun i => Rdot v (nth i x []) ^ 2)) /\
    power x = 3 /\ 2 * (1 / 100) * power x <= 1 /\ 4 * (1 / 100) * power x ^ 2 <= 1 /\ least_squares 2 d x [0; 2] /\ residue d x [0; 2] = 2 /\
    filter_of solve 2 XLMS (1 / 100) (fresh2 (1 / 100) XLMS).
  Proof.
    intros x d. assert (P : power x = 3) by (unfold power, normsq; cbn; ring).
    split; [repeat constructor|]. split.
    { intros [|a [|b [|]]] Lv; try discriminate Lv. unfold normsq. cbn [sumn length x nth Rdot]. pose proof (pow2_ge_0 a). pose proof (pow2_ge_0 b). lra. }
    split; [exact P|]. rewrite P. split; [lra|]. split; [lra|]. split.
    { split; [reflexivity|]. intros [|a [|b [|]]] Lv; try discriminate Lv. unfold sse. cbn [sumn length x d nth Rdot]. pose proof (pow2_ge_0 a). pose proof (pow2_ge_0 (2 - b)). lra. }
    split.
    { unfold residue, norm, normsq. cbn [sumn length x d nth Rdot].
      replace (1 * 1 + (0 * 0 + 0)) with 1 by ring. replace (0 * 0 + (1 * 1 + 0)) with 1 by ring. rewrite sqrt_1.
      replace (1 - (0 * 1 + (2 * 0 + 0))) with 1 by ring. replace (2 - (0 * 0 + (2 * 1 + 0))) with 0 by ring. replace (-1 - (0 * 1 + (2 * 0 + 0))) with (- (1)) by ring.
      rewrite Rabs_Ropp, Rabs_R1, Rabs_R0. ring. }
    split; [apply (fresh2_reachable solve (1 / 100) None None None KLMS); reflexivity|split; reflexivity].
  Qed.
End S.
