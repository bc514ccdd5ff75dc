(** C54: convergence on endless data (exact real arithmetic). *)
From Coq Require Import Reals Lra Psatz.
From Verif Require Import Py Num Numpy Filters Registry Spec StructProofs RunProofs Reach RVec RFilter PropsRun PropsStability PropsNoise.
Open Scope R_scope.

(** ** Specification *)
(** the first N items of an endless stream *)
Definition first {A} (N : nat) (f : nat -> A) : list A := map f (seq 0 N).

(** the inputs excite all directions again and again: in every window of m samples *)
Definition exciting (n m : nat) (alpha : R) (xx : nat -> rvec) : Prop :=
  0 < alpha /\ forall k v, length v = n -> alpha * normsq v <= total m (fun i => Rdot v (xx (k + i)%nat) ^ 2).

(** ** Sequences *)
Lemma cv_squeeze (u v : nat -> R) : (forall k, 0 <= u k <= v k) -> Un_cv v 0 -> Un_cv u 0.
Proof.
  intros H Hv eps He. destruct (Hv eps He) as (N & HN). exists N. intros k Hk. specialize (HN k Hk). specialize (H k).
  unfold R_dist in *. rewrite Rminus_0_r in *. rewrite Rabs_right in * by lra. lra.
Qed.
Lemma cv_scal (u : nat -> R) c : Un_cv u 0 -> Un_cv (fun k => c * u k) 0.
Proof.
  intros H. replace 0 with (c * 0) by ring. apply (CV_mult (fun _ => c) u c 0); [|exact H].
  intros eps He. exists 0%nat. intros k _. unfold R_dist. rewrite Rminus_diag_eq, Rabs_R0 by reflexivity. exact He.
Qed.
Lemma cv_shift (u : nat -> R) i : Un_cv u 0 -> Un_cv (fun k => u (k + i)%nat) 0.
Proof. intros H eps He. destruct (H eps He) as (N & HN). exists N. intros k Hk. apply HN. lia. Qed.
Lemma cv_sum m (f : nat -> nat -> R) : (forall i, (i < m)%nat -> Un_cv (f i) 0) -> Un_cv (fun k => total m (fun i => f i k)) 0.
Proof.
  induction m as [|m IH]; intros H.
  - intros eps He. exists 0%nat. intros k _. unfold R_dist, total. simpl. rewrite Rminus_0_r, Rabs_R0. exact He.
  - assert (Hs : Un_cv (fun k => total m (fun i => f i k) + f m k) (0 + 0)).
    { apply CV_plus; [apply IH; intros i Hi; apply H; lia|apply H; lia]. }
    rewrite Rplus_0_l in Hs. intros eps He. destruct (Hs eps He) as (N & HN). exists N. intros k Hk.
    rewrite total_S. apply HN; exact Hk.
Qed.
Lemma cv_pow (u : nat -> R) p : (0 < p)%nat -> (forall k, 0 <= u k) -> Un_cv (fun k => u k ^ p) 0 -> Un_cv u 0.
Proof.
  intros Hp Hu H eps He. destruct (H (eps ^ p) (pow_lt eps p He)) as (N & HN). exists N. intros k Hk. specialize (HN k Hk).
  unfold R_dist in *. rewrite Rminus_0_r in *. rewrite Rabs_right in HN by (apply Rle_ge, pow_le, Hu).
  rewrite Rabs_right by (apply Rle_ge, Hu). destruct (Rlt_le_dec (u k) eps) as [|Hc]; [assumption|exfalso].
  pose proof (pow_incr eps (u k) p ltac:(lra)) as Hi. lra.
Qed.
Lemma cv_abs (u : nat -> R) : Un_cv (fun k => Rabs (u k)) 0 -> Un_cv u 0.
Proof.
  intros H eps He. destruct (H eps He) as (N & HN). exists N. intros k Hk. specialize (HN k Hk).
  unfold R_dist in *. rewrite Rminus_0_r in *. rewrite Rabs_Rabsolu in HN. exact HN.
Qed.
Lemma cv_sq (u : nat -> R) : Un_cv (fun k => u k ^ 2) 0 -> Un_cv u 0.
Proof.
  intros H. apply cv_abs. apply (cv_pow _ 2); [lia|intros; apply Rabs_pos|].
  intros eps He. destruct (H eps He) as (N & HN). exists N. intros k Hk. rewrite pow2_abs. apply HN; exact Hk.
Qed.

(** decreasing and bounded below: the decrements tend to 0 *)
Lemma cv_decrement (D : nat -> R) : (forall k, 0 <= D k) -> (forall k, D (S k) <= D k) -> Un_cv (fun k => D k - D (S k)) 0.
Proof.
  intros H0 H1. assert (Hd : Un_decreasing D) by exact H1.
  destruct (decreasing_cv D Hd) as (l & Hl). { exists 0. intros x (k & ->). unfold opp_seq. specialize (H0 k). lra. }
  intros eps He. destruct (Hl (eps / 2) ltac:(lra)) as (N & HN). exists N. intros k Hk.
  pose proof (HN k Hk) as A. pose proof (HN (S k) ltac:(lia)) as B. unfold R_dist in *. rewrite Rminus_0_r.
  replace (D k - D (S k)) with ((D k - l) + - (D (S k) - l)) by ring.
  eapply Rle_lt_trans; [apply Rabs_triang|]. rewrite Rabs_Ropp. lra.
Qed.

Lemma total_le N f g : (forall k, (k < N)%nat -> f k <= g k) -> total N f <= total N g.
Proof.
  induction N as [|N IH]; intros H; [unfold total; simpl; lra|]. rewrite !total_S.
  specialize (IH (fun k Hk => H k ltac:(lia))). specialize (H N ltac:(lia)). lra.
Qed.
Lemma total_nonneg N f : (forall k, (k < N)%nat -> 0 <= f k) -> 0 <= total N f.
Proof.
  intros H. apply Rle_trans with (total N (fun _ => 0)); [|apply total_le; exact H].
  clear H. induction N as [|N IH]; [unfold total; simpl; lra|rewrite total_S; lra].
Qed.
Lemma total_mono N M f : (N <= M)%nat -> (forall k, 0 <= f k) -> total N f <= total M f.
Proof. intros H Hf; induction H as [|M _ IH]; [lra|rewrite total_S; specialize (Hf M); lra]. Qed.

(** ** Error-driven vector sequences *)
Section V.
  Variable n : nat.
  Variables (xx : nat -> rvec) (ws : rvec) (W : nat -> rvec) (g : nat -> R).
  Hypothesis Lx : forall k, length (xx k) = n.
  Hypothesis Lws : length ws = n.
  Hypothesis LW : forall k, length (W k) = n.
  Hypothesis Hstep : forall k, W (S k) = vadd (W k) (vsc (g k) (xx k)).
  Let e k := Rdot ws (xx k) - Rdot (W k) (xx k).
  Let D k := distsq (W k) ws.
  Let s k := normsq (xx k).

  Lemma D_step k : D (S k) = D k - g k * (2 * e k - g k * s k).
  Proof. unfold D, e, s. rewrite Hstep, distsq_move by (rewrite Lx; auto). ring. Qed.

  Lemma e_bound k : e k ^ 2 <= D k * s k.
  Proof.
    pose proof (Cauchy_Schwarz (vsub (W k) ws) (xx k)) as H. rewrite Rdot_comm in H.
    rewrite Rdot_vsub_r in H by (rewrite ?Lx, ?LW, ?Lws; auto). unfold D, s, distsq, e.
    rewrite !(Rdot_comm _ (xx k)). lra.
  Qed.

  Lemma D_mono : (forall k, D k <= D 0%nat -> 0 <= g k * (2 * e k - g k * s k)) -> forall k, D (S k) <= D k /\ D k <= D 0%nat.
  Proof.
    intros H k. assert (Hk : D k <= D 0%nat). { induction k as [|k IH]; [lra|]. rewrite D_step. specialize (H k IH). lra. }
    split; [|exact Hk]. rewrite D_step. specialize (H k Hk). lra.
  Qed.

  Lemma q_cv : (forall k, D k <= D 0%nat -> 0 <= g k * (2 * e k - g k * s k)) -> Un_cv (fun k => g k * (2 * e k - g k * s k)) 0.
  Proof.
    intros H. pose proof (cv_decrement D (fun k => normsq_nonneg _) (fun k => proj1 (D_mono H k))) as Hc.
    intros eps He. destruct (Hc eps He) as (N & HN). exists N. intros k Hk. specialize (HN k Hk). rewrite D_step in HN.
    replace (g k * (2 * e k - g k * s k)) with (D k - (D k - g k * (2 * e k - g k * s k))) by ring. exact HN.
  Qed.

  (** the drift over i steps *)
  Lemma drift k i : normsq (vsub (W (k + i)%nat) (W k)) <= INR i * total i (fun j => g (k + j)%nat ^ 2 * s (k + j)%nat).
  Proof.
    induction i as [|i IH].
    - rewrite Nat.add_0_r. unfold total; cbn [seq map]. rewrite normsq_vsub by reflexivity. unfold normsq. simpl Rsum. simpl INR. lra.
    - rewrite Nat.add_succ_r, Hstep, total_S, S_INR.
      set (u := vsub (W (k + i)%nat) (W k)) in *. set (v := vsc (g (k + i)%nat) (xx (k + i)%nat)) in *.
      assert (Lu : length u = n) by (apply vsub_length; auto). assert (Lv : length v = n) by (unfold v; rewrite vsc_length; auto).
      replace (vsub (vadd (W (k + i)%nat) v) (W k)) with (vadd u v).
      2: { apply nth_ext0; [rewrite (vadd_length u v n), (vsub_length _ _ n); auto using vadd_length|].
           intros j Hj. unfold u. rewrite nth_vadd by (fold u; congruence). rewrite !nth_vsub by (first [rewrite !LW; reflexivity|rewrite (vadd_length _ _ n (LW _) Lv), LW; reflexivity]).
           rewrite nth_vadd by (rewrite LW, Lv; reflexivity). ring. }
      rewrite normsq_vadd by congruence.
      assert (Hv : normsq v = g (k + i)%nat ^ 2 * s (k + i)%nat) by (unfold v, s; rewrite normsq_vsc; ring). rewrite <- Hv.
      pose proof (Cauchy_Schwarz u v) as CS. pose proof (normsq_nonneg u) as Hu. pose proof (normsq_nonneg v) as Hv0.
      set (T := total i _) in *. set (U := normsq u) in *. set (Q := normsq v) in *. set (P := Rdot u v) in *.
      assert (HT : 0 <= T).
      { apply total_nonneg. intros j _. apply Rmult_le_pos; [apply pow2_ge_0|apply normsq_nonneg]. }
      destruct i as [|i].
      { assert (U <= 0) by (simpl INR in IH; lra). assert (HU : U = 0) by lra. rewrite HU in *. assert (HP : P = 0) by nra.
        rewrite HP. simpl INR. lra. }
      rewrite S_INR in *. pose proof (pos_INR i) as Hi. set (I := INR i + 1) in *. assert (HI : 1 <= I) by (unfold I; lra).
      (* 2P <= U / I + I * Q *)
      assert (H2 : 2 * P <= U / I + I * Q).
      { assert (Hsq : (2 * P) ^ 2 <= (U / I + I * Q) ^ 2).
        { replace ((U / I + I * Q) ^ 2) with ((U / I - I * Q) ^ 2 + 4 * (U * Q)) by (field; lra).
          pose proof (pow2_ge_0 (U / I - I * Q)). nra. }
        assert (Hpos : 0 <= U / I + I * Q).
        { assert (0 <= U / I) by (apply Rmult_le_pos; [lra|left; apply Rinv_0_lt_compat; lra]). nra. }
        apply Rnot_lt_le. intros Hc. nra. }
      assert (H3 : U / I <= T).
      { apply Rmult_le_reg_r with I; [lra|]. unfold Rdiv. rewrite Rmult_assoc, Rinv_l, Rmult_1_r by lra. lra. }
      nra.
  Qed.

  Lemma weights_converge m alpha B : exciting n m alpha xx -> (forall k, s k <= B) ->
    Un_cv e 0 -> Un_cv (fun k => g k ^ 2 * s k) 0 -> Un_cv D 0.
  Proof.
    intros (Ha & Hex) HB He Hg.
    assert (HB0 : 0 <= B) by (eapply Rle_trans; [apply (normsq_nonneg (xx 0%nat))|apply HB]).
    set (r := fun i k => 2 * e (k + i)%nat ^ 2 + 2 * (B * (INR m * total m (fun j => g (k + j)%nat ^ 2 * s (k + j)%nat)))).
    apply (cv_squeeze _ (fun k => / alpha * total m (fun i => r i k))).
    2: { apply cv_scal, cv_sum. intros i _. unfold r. rewrite <- (Rplus_0_r 0). apply CV_plus.
         - apply cv_scal. replace 0 with (0 * (0 * 1)) by ring. apply CV_mult; [apply cv_shift, He|].
           apply CV_mult; [apply cv_shift, He|]. intros eps Heps. exists 0%nat. intros. unfold R_dist. rewrite Rminus_diag_eq, Rabs_R0 by reflexivity. exact Heps.
         - apply cv_scal, cv_scal, cv_scal, cv_sum. intros j _. apply (cv_shift (fun k => g k ^ 2 * s k)), Hg. }
    intros k. split; [apply normsq_nonneg|].
    apply Rmult_le_reg_l with alpha; [exact Ha|]. rewrite <- Rmult_assoc, Rinv_r, Rmult_1_l by lra.
    refine (Rle_trans _ _ _ (Hex k (vsub (W k) ws) _) _); [apply vsub_length; auto|].
    apply total_le. intros i Hi. unfold r.
    set (x := xx (k + i)%nat). set (u := vsub (W (k + i)%nat) (W k)).
    assert (Hdot : Rdot (vsub (W k) ws) x = - e (k + i)%nat - Rdot u x).
    { unfold u, e, x. rewrite !(Rdot_comm (vsub _ _)), !Rdot_vsub_r by (rewrite ?Lx, ?LW, ?Lws; auto). rewrite !(Rdot_comm (xx (k + i)%nat)). ring. }
    rewrite Hdot. assert (Hu : Rdot u x ^ 2 <= B * (INR m * total m (fun j => g (k + j)%nat ^ 2 * s (k + j)%nat))).
    { pose proof (Cauchy_Schwarz u x) as CS. pose proof (drift k i) as Hd. fold u in Hd.
      assert (Hm : INR i * total i (fun j => g (k + j)%nat ^ 2 * s (k + j)%nat) <= INR m * total m (fun j => g (k + j)%nat ^ 2 * s (k + j)%nat)).
      { assert (Hp : forall j, 0 <= g (k + j)%nat ^ 2 * s (k + j)%nat) by (intros; apply Rmult_le_pos; [apply pow2_ge_0|apply normsq_nonneg]).
        apply Rmult_le_compat; [apply pos_INR|apply total_nonneg; auto|apply le_INR; lia|apply total_mono; [lia|auto]]. }
      pose proof (HB (k + i)%nat) as Hx. unfold s in Hx at 1. fold x in Hx. pose proof (normsq_nonneg u). pose proof (normsq_nonneg x).
      replace (Rdot u x ^ 2) with (Rdot u x * Rdot u x) by ring. nra. }
    pose proof (pow2_ge_0 (e (k + i)%nat - Rdot u x)). nra.
  Qed.
End V.

Lemma first_length {A} N (f : nat -> A) : length (first N f) = N.
Proof. unfold first. rewrite map_length, seq_length. reflexivity. Qed.
Lemma first_nth {A} N (f : nat -> A) k dflt : (k < N)%nat -> nth k (first N f) dflt = f k.
Proof.
  intros Hk. unfold first. rewrite (nth_indep _ dflt (f 0%nat)) by (rewrite map_length, seq_length; exact Hk).
  rewrite map_nth, seq_nth by exact Hk. reflexivity.
Qed.

Section S.
  Variable solve : list rvec -> list rvec -> option (list rvec).
  #[local] Hint Extern 0 (Num R) => exact (RNum solve) : typeclass_instances.
  Notation obj := (obj R).

  (** ** Specification: on the endless data dd, xx the filter makes the errors E and passes through the weights W;
      that is, run on the first N samples returns the first N of them, for every N. *)
  Definition endless_run (o : obj) (dd : nat -> R) (xx : nat -> rvec) (E : nat -> R) (W : nat -> rvec) : Prop :=
    forall N, (0 < N)%nat -> exists o' y, run (first N dd) (first N xx) o = (o', Ok (y, first N E, first N W)).

  Fixpoint Wseq (g : R -> rvec -> R) (w0 : rvec) (dd : nat -> R) (xx : nat -> rvec) (k : nat) : rvec :=
    match k with
    | O => w0
    | S k' => let w := Wseq g w0 dd xx k' in vadd w (vsc (g (dd k' - Rdot w (xx k')) (xx k')) (xx k'))
    end.

  Lemma Wseq_length g w0 dd xx n k : length w0 = n -> (forall k, length (xx k) = n) -> length (Wseq g w0 dd xx k) = n.
  Proof.
    intros H0 Hx; induction k as [|k IH]; [exact H0|]. cbn [Wseq]. cbv zeta. apply vadd_length; [exact IH|].
    rewrite vsc_length. apply Hx.
  Qed.

  Lemma endless n (o : obj) dd xx (g : R -> rvec -> R) : reachable n o -> (forall k, length (xx k) = n) ->
    (forall e v, textbook (o_ext o) (o_mu o) e v = Some (vsc (g e v) v)) ->
    endless_run o dd xx (fun k => dd k - Rdot (Wseq g (o_w o) dd xx k) (xx k)) (Wseq g (o_w o) dd xx).
  Proof.
    intros Hr Hx Hg N HN.
    assert (Ht : forall e v, textbook (o_ext o) (o_mu o) e v <> None) by (intros; rewrite Hg; discriminate).
    assert (Hrows : rows_of n (first N xx)).
    { unfold first. apply Forall_forall. intros r Hin. apply in_map_iff in Hin as (k & <- & _). apply Hx. }
    assert (Hne : first N xx <> []). { destruct N; [lia|discriminate]. }
    assert (Hl : length (first N dd) = length (first N xx)) by (rewrite !first_length; reflexivity).
    destruct (C07_run_total n o (first N dd) (first N xx) Hr Hrows Hl Hne) as [(y & e & w & Er & _ & Le & Lw & _)|(ex & _ & Hs)].
    2: { exfalso. unfold soft_exn in Hs. destruct (o_ext o); try contradiction; apply (Ht 0 []); reflexivity. }
    destruct (run (first N dd) (first N xx) o) as [o' r] eqn:E. cbn [snd] in Er. subst r.
    exists o', y. rewrite first_length in Le, Lw. pose proof Hr as Hwf. apply reachable_wf in Hwf.
    assert (HW : forall k, (k <= N)%nat -> wrow w (o_w o') k = Wseq g (o_w o) dd xx k).
    { induction k as [|k IH]; intros Hk.
      - pose proof (C02_first_row n o o' _ _ y e w Hr Hrows Hl E) as H0. cbn [Wseq]. rewrite <- H0.
        unfold wrow. rewrite app_nth1 by lia. reflexivity.
      - destruct (run_textbook solve n o o' _ _ y e w k Hwf Hrows Ht E) as (dw & Htb & Hrow & Hy & He & Hl1 & Hl2); [rewrite first_length; lia|].
        rewrite Hrow, IH by lia. rewrite Hg in Htb. injection Htb as <-. cbn [Wseq]. cbv zeta.
        rewrite IH in Hy by lia. rewrite Hy in He. rewrite !first_nth in * by lia. rewrite He. reflexivity. }
    f_equal. f_equal. f_equal; [f_equal|].
    - apply (nth_ext _ _ 0 0); rewrite ?first_length; [exact Le|]. rewrite Le. intros k Hk.
      destruct (run_textbook solve n o o' _ _ y e w k Hwf Hrows Ht E) as (dw & Htb & Hrow & Hy & He & Hl1 & Hl2); [rewrite first_length; lia|].
      rewrite He, Hy, HW by lia. rewrite !first_nth by lia. reflexivity.
    - apply (nth_ext _ _ [] []); rewrite ?first_length; [exact Lw|]. rewrite Lw. intros k Hk. rewrite first_nth by exact Hk.
      rewrite <- HW by lia. unfold wrow. rewrite app_nth1 by lia. reflexivity.
  Qed.

  (** what is proved of each class: the errors tend to zero, and the weights to the true system if the inputs keep
      exciting all directions; the distance never grows *)
  Definition identifies (n : nat) (o : obj) (dd : nat -> R) (xx : nat -> rvec) (ws : rvec) : Prop :=
    exists E W, endless_run o dd xx E W /\ (forall k, distsq (W (S k)) ws <= distsq (W k) ws) /\
      Un_cv E 0 /\
      (forall m alpha, exciting n m alpha xx -> Un_cv (fun k => distsq (W k) ws) 0).

  Lemma identify n (o : obj) dd xx ws g B : reachable n o -> (forall k, length (xx k) = n) -> length ws = n ->
    (forall e v, textbook (o_ext o) (o_mu o) e v = Some (vsc (g e v) v)) ->
    (forall k, dd k = Rdot ws (xx k)) -> (forall k, normsq (xx k) <= B) ->
    (** one step, when the error is compatible with a distance not larger than the initial one *)
    (forall e v, normsq v <= B -> length v = n -> (exists k, v = xx k) -> e ^ 2 <= distsq (o_w o) ws * normsq v ->
       0 <= g e v * (2 * e - g e v * normsq v)) ->
    (** the error is small when the decrease is *)
    (forall u : nat -> R, (forall k, u k ^ 2 <= distsq (o_w o) ws * normsq (xx k)) ->
       Un_cv (fun k => g (u k) (xx k) * (2 * u k - g (u k) (xx k) * normsq (xx k))) 0 ->
       Un_cv u 0 /\ Un_cv (fun k => g (u k) (xx k) ^ 2 * normsq (xx k)) 0) ->
    identifies n o dd xx ws.
  Proof.
    intros Hr Hx Hws Hg Hd HB H1 H2. set (W := Wseq g (o_w o) dd xx).
    pose proof Hr as Hwf. apply reachable_wf in Hwf. destruct Hwf as (Lw & _).
    assert (LW : forall k, length (W k) = n) by (intros; apply Wseq_length; auto).
    set (u := fun k => Rdot ws (xx k) - Rdot (W k) (xx k)).
    assert (Hstep : forall k, W (S k) = vadd (W k) (vsc (g (u k) (xx k)) (xx k))).
    { intros k. unfold W at 1. cbn [Wseq]. cbv zeta. fold W. unfold u. rewrite <- Hd. reflexivity. }
    exists (fun k => dd k - Rdot (W k) (xx k)), W. split; [apply (endless n); auto|].
    assert (Hq : forall k, distsq (W k) ws <= distsq (W 0%nat) ws ->
      0 <= g (u k) (xx k) * (2 * u k - g (u k) (xx k) * normsq (xx k))).
    { intros k Hk. apply H1; eauto. refine (Rle_trans _ _ _ (e_bound n xx ws W Hx Hws LW k) _).
      apply Rmult_le_compat_r; [apply normsq_nonneg|exact Hk]. }
    pose proof (D_mono n xx ws W (fun k => g (u k) (xx k)) Hx Hws LW Hstep Hq) as Hmono.
    split; [intros k; apply Hmono|].
    destruct (H2 u) as (Hu & Hg2).
    { intros k. refine (Rle_trans _ _ _ (e_bound n xx ws W Hx Hws LW k) _).
      apply Rmult_le_compat_r; [apply normsq_nonneg|]. apply Hmono. }
    { exact (q_cv n xx ws W (fun k => g (u k) (xx k)) Hx Hws LW Hstep Hq). }
    split.
    - intros eps He. destruct (Hu eps He) as (N & HN). exists N. intros k Hk. rewrite Hd. exact (HN k Hk).
    - intros m alpha Hex. exact (weights_converge n xx ws W (fun k => g (u k) (xx k)) Hx Hws LW Hstep m alpha B Hex HB Hu Hg2).
  Qed.

  Lemma cv_from_sq (u q : nat -> R) C : (forall k, u k ^ 2 <= C * q k) -> Un_cv q 0 -> Un_cv u 0.
  Proof.
    intros H Hq. apply cv_sq. apply (cv_squeeze _ (fun k => C * q k)); [intros k; split; [apply pow2_ge_0|apply H]|apply cv_scal, Hq].
  Qed.

  (** *** C54 *)
  Theorem C54_LMS : forall n (o : obj) dd xx ws c,
    reachable n o -> o_ext o = XLMS -> (forall k, length (xx k) = n) -> length ws = n ->
    (forall k, dd k = Rdot ws (xx k)) ->
    0 < o_mu o -> c < 2 -> (forall k, o_mu o * normsq (xx k) <= c) ->
    identifies n o dd xx ws.
  Proof.
    intros n o dd xx ws c Hr Ex Hx Hws Hd Hmu Hc Hs. set (mu := o_mu o) in *.
    assert (Hc0 : 0 <= c). { refine (Rle_trans _ _ _ _ (Hs 0%nat)). apply Rmult_le_pos; [lra|apply normsq_nonneg]. }
    apply (identify n o dd xx ws (fun e v => mu * e) (c / mu)); auto.
    - intros e v. rewrite Ex. reflexivity.
    - intros k. apply Rmult_le_reg_l with mu; [exact Hmu|]. replace (mu * (c / mu)) with c by (field; lra). apply Hs.
    - intros e v _ _ (k & ->) _. replace (mu * e * (2 * e - mu * e * normsq (xx k))) with (mu * e ^ 2 * (2 - mu * normsq (xx k))) by ring.
      specialize (Hs k). apply Rmult_le_pos; [apply Rmult_le_pos; [lra|apply pow2_ge_0]|lra].
    - intros u _ Hq. assert (H1 : forall k, u k ^ 2 <= / (mu * (2 - c)) * (mu * u k * (2 * u k - mu * u k * normsq (xx k)))).
      { intros k. apply Rmult_le_reg_l with (mu * (2 - c)); [apply Rmult_lt_0_compat; lra|].
        rewrite <- Rmult_assoc, Rinv_r, Rmult_1_l by (apply Rgt_not_eq, Rmult_lt_0_compat; lra).
        replace (mu * u k * (2 * u k - mu * u k * normsq (xx k))) with (mu * u k ^ 2 * (2 - mu * normsq (xx k))) by ring.
        specialize (Hs k). replace (mu * (2 - c) * u k ^ 2) with (mu * u k ^ 2 * (2 - c)) by ring.
        apply Rmult_le_compat_l; [apply Rmult_le_pos; [lra|apply pow2_ge_0]|lra]. }
      split; [exact (cv_from_sq u _ _ H1 Hq)|].
      apply (cv_squeeze _ (fun k => mu * c * (/ (mu * (2 - c)) * (mu * u k * (2 * u k - mu * u k * normsq (xx k)))))); [|apply cv_scal, cv_scal, Hq].
      intros k. split; [apply Rmult_le_pos; [apply pow2_ge_0|apply normsq_nonneg]|].
      apply Rle_trans with (mu * c * u k ^ 2); [|apply Rmult_le_compat_l; [nra|apply H1]].
      specialize (Hs k). pose proof (pow2_ge_0 (u k)). replace ((mu * u k) ^ 2 * normsq (xx k)) with (mu * u k ^ 2 * (mu * normsq (xx k))) by ring.
      replace (mu * c * u k ^ 2) with (mu * u k ^ 2 * c) by ring. apply Rmult_le_compat_l; [nra|exact Hs].
  Qed.

  Theorem C54_NLMS : forall n (o : obj) dd xx ws eps B,
    reachable n o -> o_ext o = XNLMS eps -> (forall k, length (xx k) = n) -> length ws = n ->
    (forall k, dd k = Rdot ws (xx k)) ->
    0 < o_mu o < 2 -> 0 <= eps -> (forall k, 0 < eps + normsq (xx k) <= B) ->
    identifies n o dd xx ws.
  Proof.
    intros n o dd xx ws eps B Hr Ex Hx Hws Hd Hmu Heps HB. set (mu := o_mu o) in *.
    assert (Hid : forall e s, 0 < eps + s -> mu / (eps + s) * e * (2 * e - mu / (eps + s) * e * s) =
       mu * (e ^ 2 / (eps + s)) * (2 - mu * (s / (eps + s)))) by (intros; field; lra).
    assert (Hfr : forall s, 0 <= s -> 0 < eps + s -> 0 <= s / (eps + s) <= 1).
    { intros s H0 H1. split; [apply Rmult_le_pos; [lra|left; apply Rinv_0_lt_compat; lra]|].
      apply Rmult_le_reg_r with (eps + s); [lra|]. unfold Rdiv. rewrite Rmult_assoc, Rinv_l by lra. lra. }
    assert (Hpos : forall e s, 0 < eps + s -> 0 <= e ^ 2 / (eps + s)).
    { intros. apply Rmult_le_pos; [apply pow2_ge_0|left; apply Rinv_0_lt_compat; lra]. }
    assert (Hlow : forall e s, 0 <= s -> 0 < eps + s ->
       mu * (2 - mu) * (e ^ 2 / (eps + s)) <= mu / (eps + s) * e * (2 * e - mu / (eps + s) * e * s)).
    { intros e s H0 H1. rewrite Hid by exact H1. pose proof (Hfr s H0 H1). pose proof (Hpos e s H1).
      replace (mu * (2 - mu) * (e ^ 2 / (eps + s))) with (mu * (e ^ 2 / (eps + s)) * (2 - mu)) by ring.
      apply Rmult_le_compat_l; [nra|nra]. }
    assert (Hm2 : 0 < mu * (2 - mu)) by nra.
    assert (HB0 : 0 < B) by (specialize (HB 0%nat); lra).
    apply (identify n o dd xx ws (fun e v => mu / (eps + normsq v) * e) B); auto.
    - intros e v. rewrite Ex. reflexivity.
    - intros k. specialize (HB k). lra.
    - intros e v _ _ (k & ->) _. refine (Rle_trans _ _ _ _ (Hlow e _ (normsq_nonneg _) (proj1 (HB k)))).
      apply Rmult_le_pos; [lra|]. apply Hpos, HB.
    - intros u _ Hq. set (q := fun k => mu / (eps + normsq (xx k)) * u k * (2 * u k - mu / (eps + normsq (xx k)) * u k * normsq (xx k))) in *.
      assert (Ht : Un_cv (fun k => u k ^ 2 / (eps + normsq (xx k))) 0).
      { apply (cv_squeeze _ (fun k => / (mu * (2 - mu)) * q k)); [|apply cv_scal, Hq]. intros k. split; [apply Hpos, HB|].
        apply Rmult_le_reg_l with (mu * (2 - mu)); [exact Hm2|]. rewrite <- Rmult_assoc, Rinv_r, Rmult_1_l by lra.
        apply Hlow; [apply normsq_nonneg|apply HB]. }
      split.
      + apply (cv_from_sq u (fun k => u k ^ 2 / (eps + normsq (xx k))) B); [|exact Ht].
        intros k. specialize (HB k). apply Rle_trans with ((eps + normsq (xx k)) * (u k ^ 2 / (eps + normsq (xx k)))).
        * right. field. lra.
        * apply Rmult_le_compat_r; [apply Hpos|]; lra.
      + apply (cv_squeeze _ (fun k => mu ^ 2 * (u k ^ 2 / (eps + normsq (xx k))))); [|apply cv_scal, Ht].
        intros k. split; [apply Rmult_le_pos; [apply pow2_ge_0|apply normsq_nonneg]|]. specialize (HB k).
        pose proof (Hfr _ (normsq_nonneg (xx k)) (proj1 HB)) as F. pose proof (Hpos (u k) _ (proj1 HB)) as P.
        replace ((mu / (eps + normsq (xx k)) * u k) ^ 2 * normsq (xx k)) with
          (mu ^ 2 * (u k ^ 2 / (eps + normsq (xx k))) * (normsq (xx k) / (eps + normsq (xx k)))) by (field; lra).
        rewrite <- (Rmult_1_r (mu ^ 2 * (u k ^ 2 / _))) at 2. apply Rmult_le_compat_l; [|lra].
        apply Rmult_le_pos; [apply pow2_ge_0|exact P].
  Qed.

  (** fourth powers *)
  Lemma cv_from_4 (u q : nat -> R) C : (forall k, u k ^ 4 <= C * q k) -> Un_cv q 0 -> Un_cv u 0 /\ Un_cv (fun k => u k ^ 4) 0.
  Proof.
    intros H Hq. assert (H4 : Un_cv (fun k => u k ^ 4) 0).
    { apply (cv_squeeze _ (fun k => C * q k)); [|apply cv_scal, Hq]. intros k. split; [|apply H].
      replace (u k ^ 4) with ((u k ^ 2) ^ 2) by ring. apply pow2_ge_0. }
    split; [|exact H4]. apply cv_sq, cv_sq. intros eps He. destruct (H4 eps He) as (N & HN). exists N. intros k Hk. specialize (HN k Hk).
    replace ((u k ^ 2) ^ 2) with (u k ^ 4) by ring. exact HN.
  Qed.

  (** LMF: convergence from every start that is close enough (the closer, the larger the inputs may be) *)
  Theorem C54_LMF : forall n (o : obj) dd xx ws B c,
    reachable n o -> o_ext o = XLMF -> (forall k, length (xx k) = n) -> length ws = n ->
    (forall k, dd k = Rdot ws (xx k)) ->
    0 < o_mu o -> (forall k, normsq (xx k) <= B) -> c < 2 -> o_mu o * distsq (o_w o) ws * B ^ 2 <= c ->
    identifies n o dd xx ws.
  Proof.
    intros n o dd xx ws B c Hr Ex Hx Hws Hd Hmu HB Hc Hs. set (mu := o_mu o) in *. set (D0 := distsq (o_w o) ws) in *.
    assert (HD0 : 0 <= D0) by apply normsq_nonneg.
    assert (HB0 : 0 <= B) by (refine (Rle_trans _ _ _ (normsq_nonneg _) (HB 0%nat))).
    assert (Hc0 : 0 <= c). { refine (Rle_trans _ _ _ _ Hs). apply Rmult_le_pos; [nra|apply pow2_ge_0]. }
    assert (Hin : forall e s, 0 <= s <= B -> e ^ 2 <= D0 * s -> mu * e ^ 2 * s <= c).
    { intros e s H0 H1. refine (Rle_trans _ _ _ _ Hs). rewrite !Rmult_assoc. apply Rmult_le_compat_l; [lra|].
      apply Rle_trans with (D0 * s * s); [apply Rmult_le_compat_r; lra|]. rewrite Rmult_assoc. apply Rmult_le_compat_l; [lra|]. nra. }
    assert (H4 : forall e : R, 0 <= e ^ 4) by (intros e; replace (e ^ 4) with ((e ^ 2) ^ 2) by ring; apply pow2_ge_0).
    assert (Hid : forall e s, mu * e ^ 3 * (2 * e - mu * e ^ 3 * s) = mu * e ^ 4 * (2 - mu * e ^ 2 * s)) by (intros; ring).
    apply (identify n o dd xx ws (fun e v => mu * e ^ 3) B); auto.
    - intros e v. rewrite Ex. reflexivity.
    - intros e v Hv _ _ He. rewrite Hid. specialize (Hin e (normsq v) (conj (normsq_nonneg v) Hv) He).
      apply Rmult_le_pos; [apply Rmult_le_pos; [lra|apply H4]|lra].
    - intros u Hu Hq.
      assert (Hk : forall k, mu * u k ^ 2 * normsq (xx k) <= c) by (intros k; apply Hin; [split; [apply normsq_nonneg|apply HB]|apply Hu]).
      assert (Hlow : forall k, u k ^ 4 <= / (mu * (2 - c)) * (mu * u k ^ 3 * (2 * u k - mu * u k ^ 3 * normsq (xx k)))).
      { intros k. apply Rmult_le_reg_l with (mu * (2 - c)); [apply Rmult_lt_0_compat; lra|].
        rewrite <- Rmult_assoc, Rinv_r, Rmult_1_l by (apply Rgt_not_eq, Rmult_lt_0_compat; lra). rewrite Hid.
        replace (mu * (2 - c) * u k ^ 4) with (mu * u k ^ 4 * (2 - c)) by ring. specialize (Hk k).
        apply Rmult_le_compat_l; [apply Rmult_le_pos; [lra|apply H4]|lra]. }
      destruct (cv_from_4 u _ (/ (mu * (2 - c))) Hlow Hq) as (Hu0 & Hu4).
      split; [exact Hu0|]. apply (cv_squeeze _ (fun k => mu * c * u k ^ 4)); [|apply cv_scal, Hu4].
      intros k. split; [apply Rmult_le_pos; [apply pow2_ge_0|apply normsq_nonneg]|].
      replace ((mu * u k ^ 3) ^ 2 * normsq (xx k)) with (mu * u k ^ 4 * (mu * u k ^ 2 * normsq (xx k))) by ring.
      replace (mu * c * u k ^ 4) with (mu * u k ^ 4 * c) by ring. apply Rmult_le_compat_l; [|apply Hk].
      apply Rmult_le_pos; [lra|apply H4].
  Qed.

  Theorem C54_NLMF : forall n (o : obj) dd xx ws eps B c,
    reachable n o -> o_ext o = XNLMF eps -> (forall k, length (xx k) = n) -> length ws = n ->
    (forall k, dd k = Rdot ws (xx k)) ->
    0 < o_mu o -> 0 <= eps -> (forall k, 0 < eps + normsq (xx k) <= B) -> c < 2 -> o_mu o * distsq (o_w o) ws * B <= c ->
    identifies n o dd xx ws.
  Proof.
    intros n o dd xx ws eps B c Hr Ex Hx Hws Hd Hmu Heps HB Hc Hs. set (mu := o_mu o) in *. set (D0 := distsq (o_w o) ws) in *.
    assert (HD0 : 0 <= D0) by apply normsq_nonneg.
    assert (HB0 : 0 < B) by (specialize (HB 0%nat); lra).
    assert (Hc0 : 0 <= c). { refine (Rle_trans _ _ _ _ Hs). apply Rmult_le_pos; [nra|lra]. }
    assert (Hfr : forall s, 0 <= s -> 0 < eps + s -> 0 <= s / (eps + s) <= 1).
    { intros s H0 H1. split; [apply Rmult_le_pos; [lra|left; apply Rinv_0_lt_compat; lra]|].
      apply Rmult_le_reg_r with (eps + s); [lra|]. unfold Rdiv. rewrite Rmult_assoc, Rinv_l by lra. lra. }
    assert (Hin : forall e s, 0 <= s -> 0 < eps + s <= B -> e ^ 2 <= D0 * s -> mu * e ^ 2 * (s / (eps + s)) <= c).
    { intros e s H0 H1 H2. refine (Rle_trans _ _ _ _ Hs). pose proof (Hfr s H0 (proj1 H1)) as F. pose proof (pow2_ge_0 e).
      apply Rle_trans with (mu * e ^ 2 * 1); [apply Rmult_le_compat_l; nra|]. rewrite Rmult_1_r, Rmult_assoc. apply Rmult_le_compat_l; [lra|].
      refine (Rle_trans _ _ _ H2 _). apply Rmult_le_compat_l; lra. }
    assert (H4 : forall e : R, 0 <= e ^ 4) by (intros e; replace (e ^ 4) with ((e ^ 2) ^ 2) by ring; apply pow2_ge_0).
    assert (H4s : forall e s : R, 0 < eps + s -> 0 <= e ^ 4 / (eps + s)).
    { intros. apply Rmult_le_pos; [apply H4|left; apply Rinv_0_lt_compat; lra]. }
    assert (Hid : forall e s, 0 < eps + s -> mu / (eps + s) * e ^ 3 * (2 * e - mu / (eps + s) * e ^ 3 * s) =
       mu * (e ^ 4 / (eps + s)) * (2 - mu * e ^ 2 * (s / (eps + s)))) by (intros; field; lra).
    apply (identify n o dd xx ws (fun e v => mu / (eps + normsq v) * e ^ 3) B); auto.
    - intros e v. rewrite Ex. reflexivity.
    - intros k. specialize (HB k). lra.
    - intros e v Hv _ (k & ->) He. rewrite Hid by apply HB. specialize (Hin e _ (normsq_nonneg (xx k)) (HB k) He).
      apply Rmult_le_pos; [apply Rmult_le_pos; [lra|apply H4s, HB]|lra].
    - intros u Hu Hq.
      assert (Hk : forall k, mu * u k ^ 2 * (normsq (xx k) / (eps + normsq (xx k))) <= c) by (intros k; apply Hin; [apply normsq_nonneg|apply HB|apply Hu]).
      assert (Hlow : forall k, mu * (2 - c) * (u k ^ 4 / (eps + normsq (xx k))) <=
        mu / (eps + normsq (xx k)) * u k ^ 3 * (2 * u k - mu / (eps + normsq (xx k)) * u k ^ 3 * normsq (xx k))).
      { intros k. rewrite Hid by apply HB. replace (mu * (2 - c) * (u k ^ 4 / (eps + normsq (xx k)))) with (mu * (u k ^ 4 / (eps + normsq (xx k))) * (2 - c)) by ring.
        specialize (Hk k). apply Rmult_le_compat_l; [apply Rmult_le_pos; [lra|apply H4s, HB]|lra]. }
      assert (H0 : Un_cv (fun k => u k ^ 4 / (eps + normsq (xx k))) 0).
      { refine (cv_squeeze _ _ _ (cv_scal _ (/ (mu * (2 - c))) Hq)). intros k. split; [apply H4s, HB|].
        apply Rmult_le_reg_l with (mu * (2 - c)); [apply Rmult_lt_0_compat; lra|].
        rewrite <- Rmult_assoc, Rinv_r, Rmult_1_l by (apply Rgt_not_eq, Rmult_lt_0_compat; lra). apply Hlow. }
      split.
      + apply (cv_from_4 u (fun k => u k ^ 4 / (eps + normsq (xx k))) B); [|exact H0]. intros k. specialize (HB k).
        apply Rle_trans with ((eps + normsq (xx k)) * (u k ^ 4 / (eps + normsq (xx k)))).
        * right. field. lra.
        * apply Rmult_le_compat_r; [apply H4s|]; lra.
      + apply (cv_squeeze _ (fun k => mu * c * (u k ^ 4 / (eps + normsq (xx k))))); [|apply cv_scal, H0].
        intros k. split; [apply Rmult_le_pos; [apply pow2_ge_0|apply normsq_nonneg]|]. specialize (HB k). specialize (Hk k).
        replace ((mu / (eps + normsq (xx k)) * u k ^ 3) ^ 2 * normsq (xx k)) with
          (mu * (u k ^ 4 / (eps + normsq (xx k))) * (mu * u k ^ 2 * (normsq (xx k) / (eps + normsq (xx k))))) by (field; lra).
        replace (mu * c * (u k ^ 4 / (eps + normsq (xx k)))) with (mu * (u k ^ 4 / (eps + normsq (xx k))) * c) by ring.
        apply Rmult_le_compat_l; [|exact Hk]. apply Rmult_le_pos; [lra|apply H4s; lra].
  Qed.

  (** Llncosh: for every start *)
  Lemma tanh_incr a b : a < b -> tanh a < tanh b.
  Proof.
    intros H. rewrite !tanh_exp. pose proof (exp_pos a) as A1. pose proof (exp_pos (- a)) as A2. pose proof (exp_pos b) as B1. pose proof (exp_pos (- b)) as B2.
    pose proof (exp_increasing a b H) as E1. assert (E2 : exp (- b) < exp (- a)) by (apply exp_increasing; lra).
    apply Rmult_lt_reg_r with ((exp a + exp (- a)) * (exp b + exp (- b))); [apply Rmult_lt_0_compat; lra|].
    replace ((exp a - exp (- a)) / (exp a + exp (- a)) * ((exp a + exp (- a)) * (exp b + exp (- b)))) with ((exp a - exp (- a)) * (exp b + exp (- b))) by (field; lra).
    replace ((exp b - exp (- b)) / (exp b + exp (- b)) * ((exp a + exp (- a)) * (exp b + exp (- b)))) with ((exp b - exp (- b)) * (exp a + exp (- a))) by (field; lra).
    nra.
  Qed.
  Lemma tanh_Rabs a : Rabs (tanh a) = tanh (Rabs a).
  Proof.
    unfold Rabs at 2. destruct (Rcase_abs a) as [Ha|Ha].
    - rewrite tanh_opp. pose proof (tanh_incr a 0 Ha) as H. rewrite tanh_0 in H. apply Rabs_left. exact H.
    - apply Rabs_right. apply Rle_ge, tanh_pos. lra.
  Qed.
  Theorem C54_Llncosh : forall n (o : obj) dd xx ws la c,
    reachable n o -> o_ext o = XLlncosh la -> (forall k, length (xx k) = n) -> length ws = n ->
    (forall k, dd k = Rdot ws (xx k)) ->
    0 < o_mu o -> 0 < la -> c < 2 -> (forall k, o_mu o * la * normsq (xx k) <= c) ->
    identifies n o dd xx ws.
  Proof.
    intros n o dd xx ws la c Hr Ex Hx Hws Hd Hmu Hla Hc Hs. set (mu := o_mu o) in *.
    assert (Hml : 0 < mu * la) by (apply Rmult_lt_0_compat; lra).
    assert (Hc0 : 0 <= c). { refine (Rle_trans _ _ _ _ (Hs 0%nat)). apply Rmult_le_pos; [lra|apply normsq_nonneg]. }
    (* t = tanh (la e): t e >= 0 and t^2 <= la t e *)
    assert (Ht : forall e, tanh (la * e) ^ 2 <= la * (tanh (la * e) * e)).
    { intros e. destruct (Rle_lt_dec 0 e) as [He|He].
      - pose proof (tanh_sector la e ltac:(lra) He) as (A & B'). nra.
      - pose proof (tanh_sector la (- e) ltac:(lra) ltac:(lra)) as (A & B').
        replace (la * - e) with (- (la * e)) in A, B' by ring. rewrite tanh_opp in A, B'. nra. }
    assert (Hte : forall e, 0 <= tanh (la * e) * e).
    { intros e. specialize (Ht e). pose proof (pow2_ge_0 (tanh (la * e))). nra. }
    assert (Hlow : forall e s, 0 <= s -> mu * la * s <= c -> mu * (2 - c) * (tanh (la * e) * e) <= mu * tanh (la * e) * (2 * e - mu * tanh (la * e) * s)).
    { intros e s H0 H1. replace (mu * tanh (la * e) * (2 * e - mu * tanh (la * e) * s)) with (mu * (2 * (tanh (la * e) * e) - mu * s * tanh (la * e) ^ 2)) by ring.
      rewrite Rmult_assoc. apply Rmult_le_compat_l; [lra|].
      assert (mu * s * tanh (la * e) ^ 2 <= c * (tanh (la * e) * e)); [|lra].
      apply Rle_trans with (mu * s * (la * (tanh (la * e) * e))).
      - apply Rmult_le_compat_l; [apply Rmult_le_pos; lra|apply Ht].
      - replace (mu * s * (la * (tanh (la * e) * e))) with (mu * la * s * (tanh (la * e) * e)) by ring. apply Rmult_le_compat_r; [apply Hte|exact H1]. }
    apply (identify n o dd xx ws (fun e v => mu * tanh (la * e)) (c / (mu * la))); auto.
    - intros e v. rewrite Ex. reflexivity.
    - intros k. apply Rmult_le_reg_l with (mu * la); [exact Hml|]. replace (mu * la * (c / (mu * la))) with c by (field; lra). apply Hs.
    - intros e v _ _ (k & ->) _. refine (Rle_trans _ _ _ _ (Hlow e _ (normsq_nonneg _) (Hs k))).
      apply Rmult_le_pos; [nra|apply Hte].
    - intros u _ Hq.
      assert (H0 : Un_cv (fun k => tanh (la * u k) * u k) 0).
      { refine (cv_squeeze _ _ _ (cv_scal _ (/ (mu * (2 - c))) Hq)). intros k. split; [apply Hte|].
        assert (Hp : 0 < mu * (2 - c)) by (apply Rmult_lt_0_compat; lra).
        apply Rmult_le_reg_l with (mu * (2 - c)); [exact Hp|].
        rewrite <- (Rmult_assoc (mu * (2 - c)) (/ _)), (Rinv_r (mu * (2 - c))), Rmult_1_l by lra. apply Hlow; [apply normsq_nonneg|apply Hs]. }
      assert (H1 : Un_cv (fun k => tanh (la * u k)) 0) by (apply (cv_from_sq _ (fun k => tanh (la * u k) * u k) la); [intros; apply Ht|exact H0]).
      split.
      + intros eps He. assert (Hp : 0 < tanh (la * eps)). { rewrite <- tanh_0. apply tanh_incr. apply Rmult_lt_0_compat; lra. }
        destruct (H1 _ Hp) as (N & HN). exists N. intros k Hk. specialize (HN k Hk). unfold R_dist in *. rewrite Rminus_0_r in *.
        rewrite tanh_Rabs, Rabs_mult, (Rabs_right la) in HN by lra.
        destruct (Rlt_le_dec (Rabs (u k)) eps) as [|Hc']; [assumption|exfalso].
        destruct (Rle_lt_or_eq_dec _ _ Hc') as [Hl|Heq].
        * pose proof (tanh_incr (la * eps) (la * Rabs (u k)) ltac:(apply Rmult_lt_compat_l; lra)). lra.
        * rewrite <- Heq in HN. lra.
      + apply (cv_squeeze _ (fun k => mu * c * (tanh (la * u k) * u k))); [|apply cv_scal, H0].
        intros k. split; [apply Rmult_le_pos; [apply pow2_ge_0|apply normsq_nonneg]|].
        replace ((mu * tanh (la * u k)) ^ 2 * normsq (xx k)) with (mu * (mu * normsq (xx k) * tanh (la * u k) ^ 2)) by ring.
        rewrite (Rmult_assoc mu c). apply Rmult_le_compat_l; [lra|].
        apply Rle_trans with (mu * normsq (xx k) * (la * (tanh (la * u k) * u k))).
        * apply Rmult_le_compat_l; [apply Rmult_le_pos; [lra|apply normsq_nonneg]|apply Ht].
        * replace (mu * normsq (xx k) * (la * (tanh (la * u k) * u k))) with (mu * la * normsq (xx k) * (tanh (la * u k) * u k)) by ring.
          apply Rmult_le_compat_r; [apply Hte|apply Hs].
  Qed.

  (** *** The hypotheses can be met: alternating unit inputs keep exciting both directions *)
  Definition alternating (k : nat) : rvec := if Nat.even k then [1; 0] else [0; 1].
  Lemma alternating_exciting : exciting 2 2 1 alternating.
  Proof.
    split; [lra|]. intros k v Hv. destruct v as [|a [|b [|]]]; try discriminate. unfold total. cbn [seq map].
    rewrite Nat.add_0_r, Nat.add_1_r. unfold alternating. rewrite Nat.even_succ, <- Nat.negb_even.
    destruct (Nat.even k); unfold normsq; simpl; lra.
  Qed.
  Example C54_hypotheses : exists (o : obj) dd xx ws,
    reachable 2 o /\ o_ext o = XLMS /\ (forall k, length (xx k) = 2%nat) /\ length ws = 2%nat /\
    (forall k, dd k = Rdot ws (xx k)) /\ 0 < o_mu o /\ (forall k, o_mu o * normsq (xx k) <= 1) /\
    exciting 2 2 1 xx /\ distsq (o_w o) ws <> 0.
  Proof.
    exists (fresh2 (1 / 2) XLMS), (fun k => Rdot ws0 (alternating k)), alternating, ws0.
    split; [apply (fresh2_reachable solve (1 / 2) None None None KLMS); reflexivity|]. split; [reflexivity|].
    split; [intros k; unfold alternating; destruct (Nat.even k); reflexivity|]. split; [reflexivity|]. split; [reflexivity|].
    split; [simpl; lra|]. split; [intros k; unfold alternating; destruct (Nat.even k); unfold normsq; simpl; lra|].
    split; [apply alternating_exciting|]. unfold distsq, normsq, ws0. simpl. lra.
  Qed.
  Example C54_hypotheses_LMF : exists (o : obj), reachable 2 o /\ o_ext o = XLMF /\ 0 < o_mu o /\ o_mu o * distsq (o_w o) ws0 * 1 ^ 2 <= 1.
  Proof.
    exists (fresh2 (1 / 100) XLMF). split; [apply (fresh2_reachable solve (1 / 100) None None None KLMF); reflexivity|].
    split; [reflexivity|]. split; [simpl; lra|]. unfold distsq, normsq, ws0. simpl. lra.
  Qed.
End S.
