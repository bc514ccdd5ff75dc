(** C72: LMS fed with independent samples of any distribution: what happens on average (exact real arithmetic). *)
From Coq Require Import Reals Lra Psatz.
From Verif Require Import Py Num Numpy Filters Registry Spec StructProofs RunProofs Reach RVec RFilter RMat PropsStability PropsNoise.
Open Scope R_scope.

(** ** Specification *)
(** A distribution with finitely many outcomes: outcomes with their probabilities. *)
Definition law (A : Type) : Type := list (R * A).
Definition is_law {A} (P : law A) : Prop := Forall (fun pa => 0 <= fst pa) P /\ Rsum (map fst P) = 1.
Definition mean {A} (P : law A) (g : A -> R) : R := Rsum (map (fun pa => fst pa * g (snd pa)) P).
(** the average of f over all sequences of N independent outcomes *)
Fixpoint expect {A} (P : law A) (N : nat) (f : list A -> R) : R :=
  match N with
  | O => f []
  | S N' => mean P (fun a => expect P N' (fun s => f (a :: s)))
  end.
(** a sample: input vector and target; the mean squared error of the fixed weights w *)
Definition sample : Type := (rvec * R)%type.
Definition mse_of (P : law sample) (w : rvec) : R := mean P (fun a => (snd a - Rdot w (fst a)) ^ 2).
Definition samples_of (n : nat) (P : law sample) : Prop := Forall (fun pa => length (fst (snd pa)) = n) P.
Definition best_filter (n : nat) (P : law sample) (ws : rvec) : Prop :=
  length ws = n /\ forall v, length v = n -> mse_of P ws <= mse_of P v.

(** ** Averages *)
Section Avg.
  Context {A : Type}.
  Implicit Type P : law A.
  Lemma mean_ext P f g : (forall a, In a (map snd P) -> f a = g a) -> mean P f = mean P g.
  Proof.
    unfold mean. induction P as [|[p a] P IH]; intros H; [reflexivity|]. cbn [map Rsum fst snd] in *.
    rewrite IH, (H a) by (intros; try apply H; simpl; auto). reflexivity.
  Qed.
  Lemma mean_plus P f g : mean P (fun a => f a + g a) = mean P f + mean P g.
  Proof. unfold mean. induction P as [|[p a] P IH]; cbn [map Rsum fst snd]; [ring|rewrite IH; ring]. Qed.
  Lemma mean_scal P c f : mean P (fun a => c * f a) = c * mean P f.
  Proof. unfold mean. induction P as [|[p a] P IH]; cbn [map Rsum fst snd]; [ring|rewrite IH; ring]. Qed.
  Lemma mean_const P c : is_law P -> mean P (fun _ => c) = c.
  Proof.
    intros (_ & H). transitivity (c * Rsum (map fst P)); [|rewrite H; ring].
    unfold mean. clear H. induction P as [|[p a] P IH]; cbn [map Rsum fst snd]; [ring|rewrite IH; ring].
  Qed.
  Lemma mean_le P f g : is_law P -> (forall a, In a (map snd P) -> f a <= g a) -> mean P f <= mean P g.
  Proof.
    intros (HP & _) H. revert H. unfold mean. induction P as [|[p a] P IH]; intros H; cbn [map Rsum fst snd] in *; [lra|].
    assert (IH' := IH (Forall_inv_tail HP) ltac:(intros; apply H; simpl; auto)).
    pose proof (Forall_inv HP) as Hp. cbn [fst] in Hp. assert (p * f a <= p * g a); [|lra].
    apply Rmult_le_compat_l; [exact Hp|]. apply H. left. reflexivity.
  Qed.
  Lemma mean_sum P n f : mean P (fun a => sumn n (fun j => f a j)) = sumn n (fun j => mean P (fun a => f a j)).
  Proof.
    induction n as [|n IH]; [|cbn [sumn]; rewrite mean_plus, IH; reflexivity].
    cbn [sumn]. unfold mean. induction P as [|[p a] P IHP]; cbn [map Rsum fst snd]; [ring|rewrite IHP; ring].
  Qed.

  (** sequences of possible outcomes *)
  Definition drawn P N (s : list A) : Prop := length s = N /\ Forall (fun a => In a (map snd P)) s.

  Lemma expect_ext P N : forall f g, (forall s, drawn P N s -> f s = g s) -> expect P N f = expect P N g.
  Proof.
    induction N as [|N IH]; intros f g H; [apply H; split; auto|]. apply mean_ext. intros a Ha. apply IH.
    intros s (Hs & HF). apply H. split; [simpl; congruence|constructor; auto].
  Qed.
  Lemma expect_plus P N : forall f g, expect P N (fun s => f s + g s) = expect P N f + expect P N g.
  Proof. induction N as [|N IH]; intros f g; [reflexivity|]. cbn [expect]. rewrite <- mean_plus. apply mean_ext. intros a _. apply IH. Qed.
  Lemma expect_scal P N c : forall f, expect P N (fun s => c * f s) = c * expect P N f.
  Proof. induction N as [|N IH]; intros f; [reflexivity|]. cbn [expect]. rewrite <- mean_scal. apply mean_ext. intros a _. apply IH. Qed.
  Lemma expect_const P N c : is_law P -> expect P N (fun _ => c) = c.
  Proof.
    intros HP. induction N as [|N IH]; [reflexivity|]. cbn [expect]. transitivity (mean P (fun _ => c)); [|apply mean_const; auto].
    apply mean_ext. intros a _. apply IH.
  Qed.
  Lemma expect_le P N : is_law P -> forall f g, (forall s, drawn P N s -> f s <= g s) -> expect P N f <= expect P N g.
  Proof.
    intros HP. induction N as [|N IH]; intros f g H; [apply H; split; auto|]. apply mean_le; [exact HP|]. intros a Ha. apply IH.
    intros s (Hs & HF). apply H. split; [simpl; congruence|constructor; auto].
  Qed.
  Lemma expect_0 P N : expect P N (fun _ => 0) = 0.
  Proof.
    transitivity (expect P N (fun _ => 0 * 0)); [apply expect_ext; intros; ring|].
    rewrite (expect_scal P N 0 (fun _ => 0)). ring.
  Qed.
  (** the last sample is independent of the earlier ones *)
  Lemma expect_last P N : forall f, expect P (S N) f = expect P N (fun s => mean P (fun a => f (s ++ [a]))).
  Proof.
    induction N as [|N IH]; intros f; [reflexivity|].
    change (mean P (fun a => expect P (S N) (fun s => f (a :: s))) = mean P (fun a => expect P N (fun s => mean P (fun b => f ((a :: s) ++ [b]))))).
    apply mean_ext. intros a _. rewrite IH. reflexivity.
  Qed.
  Lemma expect_mean P N : forall (f : list A -> A -> R),
    expect P N (fun s => mean P (fun a => f s a)) = mean P (fun a => expect P N (fun s => f s a)).
  Proof.
    intros f. unfold mean at 1. enough (H : forall Q : law A, expect P N (fun s => mean Q (fun a => f s a)) = mean Q (fun a => expect P N (fun s => f s a)))
      by apply H.
    unfold mean at 1 2. intros Q. induction Q as [|[q b] Q IH]; cbn [map Rsum fst snd].
    - apply expect_0.
    - rewrite expect_plus, expect_scal, IH. reflexivity.
  Qed.
  Lemma expect_sum P N n : forall (f : list A -> nat -> R),
    expect P N (fun s => sumn n (fun j => f s j)) = sumn n (fun j => expect P N (fun s => f s j)).
  Proof.
    intros f. induction n as [|n IH]; [|cbn [sumn]; rewrite expect_plus, IH; reflexivity].
    cbn [sumn]. apply expect_0.
  Qed.
End Avg.

(** ** LMS as a plain recursion *)
Definition lstep (mu : R) (w : rvec) (a : sample) : rvec := vadd w (vsc (mu * (snd a - Rdot w (fst a))) (fst a)).
Definition lerr (w : rvec) (a : sample) : R := snd a - Rdot w (fst a).
Definition lrun (mu : R) (w : rvec) (s : list sample) : rvec := fold_left (lstep mu) s w.
Fixpoint lerrs (mu : R) (w : rvec) (s : list sample) : list R :=
  match s with [] => [] | a :: s => lerr w a :: lerrs mu (lstep mu w a) s end.

Lemma lstep_length n mu w a : length w = n -> length (fst a) = n -> length (lstep mu w a) = n.
Proof. intros. apply vadd_length; rewrite ?vsc_length; auto. Qed.
Lemma lrun_length n mu s : forall w, length w = n -> Forall (fun a : sample => length (fst a) = n) s -> length (lrun mu w s) = n.
Proof.
  induction s as [|a s IH]; intros w Hw Hs; [exact Hw|]. apply IH; [|exact (Forall_inv_tail Hs)].
  apply lstep_length; [exact Hw|exact (Forall_inv Hs)].
Qed.
Lemma lrun_last mu w s a : lrun mu w (s ++ [a]) = lstep mu (lrun mu w s) a.
Proof. unfold lrun. rewrite fold_left_app. reflexivity. Qed.
Lemma lerrs_last mu a s : forall w, lerrs mu w (s ++ [a]) = lerrs mu w s ++ [lerr (lrun mu w s) a].
Proof. induction s as [|b s IH]; intros w; [reflexivity|]. cbn [app lerrs]. rewrite IH. reflexivity. Qed.
Lemma lerrs_length mu s : forall w, length (lerrs mu w s) = length s.
Proof. induction s as [|b s IH]; intros w; [reflexivity|]. cbn [lerrs length]. rewrite IH. reflexivity. Qed.

Lemma lms_unique mu (s : list sample) : forall (Wt : nat -> rvec) (e : nat -> R),
  (forall k, (k < length s)%nat -> e k = lerr (Wt k) (nth k s ([], 0)) /\ Wt (S k) = lstep mu (Wt k) (nth k s ([], 0))) ->
  Wt (length s) = lrun mu (Wt 0%nat) s /\ forall k, (k < length s)%nat -> e k = nth k (lerrs mu (Wt 0%nat) s) 0.
Proof.
  induction s as [|a s IH]; intros Wt e H; [split; [reflexivity|cbn; intros; lia]|].
  destruct (H 0%nat ltac:(cbn; lia)) as (He & Hw). cbn [nth] in He, Hw.
  destruct (IH (fun k => Wt (S k)) (fun k => e (S k))) as (H1 & H2).
  { intros k Hk. apply (H (S k)). cbn. lia. }
  cbv beta in H1, H2. rewrite Hw in H1, H2. cbn [length lerrs]. split; [exact H1|].
  intros [|k] Hk; cbn [nth]; [exact He|]. apply H2. cbn in Hk. lia.
Qed.

(** ** One step, averaged over the sample *)
Definition normal_eq (P : law sample) (n : nat) (ws : rvec) : Prop :=
  forall u, length u = n -> mean P (fun a => lerr ws a * Rdot u (fst a)) = 0.

Lemma in_samples n (P : law sample) a : samples_of n P -> In a (map snd P) -> length (fst a) = n.
Proof.
  intros H Ha. apply in_map_iff in Ha as ([p b] & <- & Hb). unfold samples_of in H. rewrite Forall_forall in H. exact (H _ Hb).
Qed.

Lemma best_normal n (P : law sample) ws : is_law P -> samples_of n P -> best_filter n P ws -> normal_eq P n ws.
Proof.
  intros HP HS (Lw & HB) u Lu.
  set (B := mean P (fun a => lerr ws a * Rdot u (fst a))). set (C := mean P (fun a => Rdot u (fst a) ^ 2)).
  assert (HQ : forall t, 0 <= t * t * C - 2 * t * B).
  { intros t. pose proof (HB (vadd ws (vsc t u))) as H. specialize (H ltac:(apply vadd_length; rewrite ?vsc_length; auto)).
    assert (E : mse_of P (vadd ws (vsc t u)) = mse_of P ws + (t * t) * C + (- (2 * t)) * B).
    { unfold mse_of, C, B. rewrite <- !mean_scal, <- !mean_plus. apply mean_ext. intros a Ha.
      pose proof (in_samples n P a HS Ha) as La. unfold lerr.
      rewrite Rdot_vadd_l by (rewrite ?vsc_length; congruence). rewrite Rdot_vsc_l. ring. }
    rewrite E in H. lra. }
  assert (HC : 0 <= C).
  { unfold C. rewrite <- (mean_const P 0 HP). apply mean_le; [exact HP|]. intros a _. apply pow2_ge_0. }
  (* t = B / (C + 1) *)
  pose proof (HQ (B / (C + 1))) as H. assert (HC1 : 0 < C + 1) by lra.
  assert (E : B / (C + 1) * (B / (C + 1)) * C - 2 * (B / (C + 1)) * B = - ((B / (C + 1)) ^ 2 * (C + 2))) by (field; lra).
  rewrite E in H. assert (H2 : (B / (C + 1)) ^ 2 <= 0).
  { apply Rmult_le_reg_r with (C + 2); [lra|]. lra. }
  assert (H3 : B / (C + 1) = 0). { pose proof (pow2_ge_0 (B / (C + 1))). assert (HE : (B / (C + 1)) ^ 2 = 0) by lra. simpl in HE. nra. }
  replace B with (B / (C + 1) * (C + 1)) by (field; lra). rewrite H3. ring.
Qed.

(** mean squared error of any weights = that of the best ones + the mean square of the output difference *)
Lemma mse_split n (P : law sample) ws w : samples_of n P -> normal_eq P n ws -> length ws = n -> length w = n ->
  mse_of P w = mse_of P ws + mean P (fun a => Rdot (vsub ws w) (fst a) ^ 2).
Proof.
  intros HS HN Lws Lw.
  assert (E : mse_of P w = mse_of P ws + mean P (fun a => Rdot (vsub ws w) (fst a) ^ 2)
                            + 2 * mean P (fun a => lerr ws a * Rdot (vsub ws w) (fst a))).
  { unfold mse_of. rewrite <- mean_scal, <- !mean_plus. apply mean_ext. intros a Ha.
    pose proof (in_samples n P a HS Ha) as La. unfold lerr. rewrite Rdot_vsub_l by congruence. ring. }
  rewrite E, HN by (apply vsub_length; auto). ring.
Qed.

Lemma step_avg n (P : law sample) ws w mu X : is_law P -> samples_of n P -> normal_eq P n ws -> length ws = n -> length w = n ->
  0 <= mu -> (forall a, In a (map snd P) -> normsq (fst a) <= X) ->
  mean P (fun a => distsq (lstep mu w a) ws) <= distsq w ws + mu * (2 * (mse_of P ws) - (2 - mu * X) * mse_of P w).
Proof.
  intros HP HS HN Lws Lw Hmu HX.
  pose proof (mse_split n P ws w HS HN Lws Lw) as Hsplit. set (Q := mean P (fun a => Rdot (vsub ws w) (fst a) ^ 2)) in *.
  eapply Rle_trans with (mean P (fun a => distsq w ws + ((- (2 * mu)) * (Rdot (vsub ws w) (fst a) ^ 2) +
     ((- (2 * mu)) * (lerr ws a * Rdot (vsub ws w) (fst a)) + mu * mu * X * (snd a - Rdot w (fst a)) ^ 2)))).
  - apply mean_le; [exact HP|]. intros a Ha. pose proof (in_samples n P a HS Ha) as La. pose proof (HX a Ha) as Hx.
    unfold lstep. rewrite distsq_move by congruence. rewrite Rdot_vsub_l by congruence. unfold lerr.
    set (s := normsq (fst a)) in *. set (p := Rdot w (fst a)). set (q := Rdot ws (fst a)). set (d := snd a).
    assert (Hm : 0 <= mu * mu * (d - p) ^ 2) by (apply Rmult_le_pos; [apply Rmult_le_pos; auto|apply pow2_ge_0]).
    assert (mu * (d - p) * (mu * (d - p)) * s <= mu * mu * X * (d - p) ^ 2).
    { replace (mu * (d - p) * (mu * (d - p)) * s) with (mu * mu * (d - p) ^ 2 * s) by ring.
      replace (mu * mu * X * (d - p) ^ 2) with (mu * mu * (d - p) ^ 2 * X) by ring. apply Rmult_le_compat_l; auto. }
    assert (2 * (mu * (d - p)) * (p - q) = - (2 * mu) * (q - p) ^ 2 + - (2 * mu) * ((d - q) * (q - p))) by ring. lra.
  - rewrite !mean_plus, mean_const, !mean_scal by exact HP. rewrite HN by (apply vsub_length; auto).
    fold Q. change (mean P (fun a => (snd a - Rdot w (fst a)) ^ 2)) with (mse_of P w).
    replace Q with (mse_of P w - mse_of P ws) by lra. apply Req_le. ring.
Qed.

Lemma total_app_last (l : list R) b (g : R -> R) : total (length l + 1) (fun k => g (nth k (l ++ [b]) 0)) = total (length l) (fun k => g (nth k l 0)) + g b.
Proof.
  rewrite Nat.add_1_r, total_S. f_equal.
  - unfold total. f_equal. apply map_ext_in. intros k Hk. apply in_seq in Hk. rewrite app_nth1 by lia. reflexivity.
  - rewrite app_nth2, Nat.sub_diag by lia. reflexivity.
Qed.

Section S.
  Variable solve : list rvec -> list rvec -> option (list rvec).
  #[local] Hint Extern 0 (Num R) => exact (RNum solve) : typeclass_instances.
  Notation obj := (obj R).

  (** the observations: weights left by, and errors returned from, one run over the samples *)
  Definition weights_after (o : obj) (s : list sample) : rvec := o_w (fst (run (map snd s) (map fst s) o)).
  Definition errors_of (o : obj) (s : list sample) : rvec :=
    match snd (run (map snd s) (map fst s) o) with Ok (_, e, _) => e | Err _ => [] end.
  Definition weights_avg (o : obj) (P : law sample) (N : nat) : rvec :=
    map (fun i => expect P N (fun s => nth i (weights_after o s) 0)) (seq 0 (length (o_w o))).
  Definition energy_avg (o : obj) (P : law sample) (N : nat) : R :=
    expect P N (fun s => total N (fun k => nth k (errors_of o s) 0 ^ 2)).

  Lemma lms_run n (o : obj) (s : list sample) : reachable n o -> o_ext o = XLMS -> Forall (fun a => length (fst a) = n) s ->
    weights_after o s = lrun (o_mu o) (o_w o) s /\ errors_of o s = lerrs (o_mu o) (o_w o) s.
  Proof.
    intros Hr Ex HF. unfold weights_after, errors_of.
    destruct s as [|a s]; [split; reflexivity|]. assert (Hne : a :: s <> []) by discriminate. revert HF Hne. generalize (a :: s). clear a s. intros l HF Hne.
    assert (Hx : rows_of n (map fst l)) by (unfold rows_of, rowsl; apply Forall_map; exact HF).
    destruct (run_exists solve n o (map snd l) (map fst l) Hr Hx) as (o' & y & e & w & E).
    { rewrite !map_length. reflexivity. } { destruct l; [congruence|discriminate]. } { intros ex H. unfold soft_exn in H. rewrite Ex in H. exact H. }
    pose proof (reachable_wf _ _ Hr) as Hwf.
    assert (Ht : forall e v, textbook (o_ext o) (o_mu o) e v <> None) by (intros; rewrite Ex; discriminate).
    rewrite E. cbn [fst snd].
    assert (Hlw : length w = length l /\ length e = length l /\ wrow w (o_w o') 0 = o_w o).
    { destruct (run_eq n o (map snd l) (map fst l) Hwf Hx) as (h & E' & _); [rewrite !map_length; reflexivity|destruct l; [congruence|discriminate]|].
      rewrite E in E'. destruct (snd (adapt_all _ _ o)); [|discriminate].
      simpl in E'. injection E' as _ _ He ->.
      split; [rewrite wtrace_length; [apply map_length|rewrite !map_length; reflexivity]|]. split.
      - rewrite He. apply map2_length_eq; [apply map_length|]. rewrite ytrace_length; rewrite !map_length; reflexivity.
      - unfold wrow. destruct l as [|b l]; [congruence|reflexivity]. }
    destruct Hlw as (Hlw & Hle & Hw0).
    destruct (lms_unique (o_mu o) l (wrow w (o_w o')) (fun k => nth k e 0)) as (H1 & H2).
    - intros k Hk. destruct (run_textbook solve n o o' _ _ y e w k Hwf Hx Ht E) as (dw & Htb & Hrow & Hy & He & Hl1 & Hl2);
        [rewrite map_length; exact Hk|].
      rewrite Ex in Htb; cbn [textbook] in Htb. injection Htb as <-.
      assert (Hxk : nth k (map fst l) [] = fst (nth k l ([], 0))) by (apply (map_nth fst l ([], 0))).
      assert (Hdk : nth k (map snd l) 0 = snd (nth k l ([], 0))) by (apply (map_nth snd l ([], 0))).
      rewrite Hxk in *. rewrite Hdk in *.
      assert (He' : nth k e 0 = lerr (wrow w (o_w o') k) (nth k l ([], 0))) by (rewrite He, Hy; reflexivity).
      split; [exact He'|]. rewrite Hrow, He'. reflexivity.
    - rewrite Hw0 in *. split.
      + rewrite <- H1. unfold wrow. rewrite app_nth2, Hlw, Nat.sub_diag by lia. reflexivity.
      + apply nth_ext0; [rewrite lerrs_length; exact Hle|]. intros k Hk. apply H2. lia.
  Qed.

  Lemma drawn_ok n (P : law sample) N s : samples_of n P -> drawn P N s -> Forall (fun a => length (fst a) = n) s.
  Proof. intros HS (_ & HF). eapply Forall_impl; [|exact HF]. intros a Ha. exact (in_samples n P a HS Ha). Qed.

  Lemma weights_avg_nth (o : obj) P N i : (i < length (o_w o))%nat ->
    nth i (weights_avg o P N) 0 = expect P N (fun s => nth i (weights_after o s) 0).
  Proof.
    intros Hi. unfold weights_avg.
    set (f := fun i => expect P N (fun s => nth i (weights_after o s) 0)).
    rewrite (nth_indep _ 0 (f 0%nat)) by (rewrite map_length, seq_length; exact Hi).
    rewrite map_nth, seq_nth by exact Hi. reflexivity.
  Qed.

  (** *** C72.  The average weights of LMS are exactly those of steepest descent on the mean squared error: for every
      distribution of the samples, one more independent sample moves the average weights by mu times the average of
      error times input, the error being that of the average weights. *)
  Theorem C72_mean_weights : forall n (o : obj) (P : law sample),
    reachable n o -> o_ext o = XLMS -> is_law P -> samples_of n P ->
    weights_avg o P 0 = o_w o /\
    forall N i, (i < n)%nat ->
      nth i (weights_avg o P (S N)) 0 =
        nth i (weights_avg o P N) 0 +
        o_mu o * mean P (fun a => (snd a - Rdot (weights_avg o P N) (fst a)) * nth i (fst a) 0).
  Proof.
    intros n o P Hr Ex HP HS. pose proof (reachable_wf _ _ Hr) as (Lw & _).
    split.
    { apply nth_ext0; [unfold weights_avg; rewrite map_length, seq_length; reflexivity|].
      intros i Hi. unfold weights_avg in Hi. rewrite map_length, seq_length in Hi. rewrite weights_avg_nth by exact Hi. reflexivity. }
    intros N i Hi.
    set (mu := o_mu o). set (w0 := o_w o) in *.
    assert (HM : forall M j, (j < n)%nat -> nth j (weights_avg o P M) 0 = expect P M (fun s => nth j (lrun mu w0 s) 0)).
    { intros M j Hj. rewrite weights_avg_nth by (unfold w0 in Lw; lia). apply expect_ext. intros s Hs.
      destruct (lms_run n o s Hr Ex (drawn_ok n P M s HS Hs)) as (-> & _). reflexivity. }
    assert (Lavg : length (weights_avg o P N) = n) by (unfold weights_avg; rewrite map_length, seq_length; exact Lw).
    rewrite !HM by exact Hi. rewrite expect_last.
    transitivity (expect P N (fun s => nth i (lrun mu w0 s) 0 +
       mu * mean P (fun a => (snd a - Rdot (lrun mu w0 s) (fst a)) * nth i (fst a) 0))).
    { apply expect_ext. intros s Hs. pose proof (drawn_ok n P N s HS Hs) as HF.
      pose proof (lrun_length n mu s w0 Lw HF) as Lr.
      rewrite <- (mean_const P (nth i (lrun mu w0 s) 0) HP). rewrite <- mean_scal, <- mean_plus. apply mean_ext. intros a Ha.
      pose proof (in_samples n P a HS Ha) as La.
      rewrite lrun_last. unfold lstep. rewrite nth_vadd by (rewrite vsc_length; congruence). rewrite nth_vsc. ring. }
    rewrite expect_plus, expect_scal. f_equal. f_equal. rewrite expect_mean. apply mean_ext. intros a Ha.
    pose proof (in_samples n P a HS Ha) as La.
    rewrite (Rdot_sumn n) by auto.
    transitivity (expect P N (fun s => nth i (fst a) 0 * snd a + (- nth i (fst a) 0) * sumn n (fun j => nth j (lrun mu w0 s) 0 * nth j (fst a) 0))).
    { apply expect_ext. intros s Hs. rewrite (Rdot_sumn n); [ring| |exact La]. apply lrun_length; [exact Lw|]. exact (drawn_ok n P N s HS Hs). }
    rewrite expect_plus, expect_const, expect_scal, expect_sum by exact HP.
    assert (E : sumn n (fun j => expect P N (fun s => nth j (lrun mu w0 s) 0 * nth j (fst a) 0)) =
                sumn n (fun j => nth j (weights_avg o P N) 0 * nth j (fst a) 0)).
    { apply sumn_ext. intros j Hj. rewrite HM by exact Hj. rewrite Rmult_comm, <- expect_scal. apply expect_ext. intros; ring. }
    rewrite E. ring.
  Qed.

  Lemma energy_step n (o : obj) (P : law sample) N : reachable n o -> o_ext o = XLMS -> is_law P -> samples_of n P ->
    energy_avg o P (S N) = energy_avg o P N + expect P N (fun s => mse_of P (lrun (o_mu o) (o_w o) s)).
  Proof.
    intros Hr Ex HP HS. unfold energy_avg. set (mu := o_mu o). set (w0 := o_w o).
    assert (HE : forall M, expect P M (fun s => total M (fun k => nth k (errors_of o s) 0 ^ 2)) =
                           expect P M (fun s => total M (fun k => nth k (lerrs mu w0 s) 0 ^ 2))).
    { intros M. apply expect_ext. intros s Hs. destruct (lms_run n o s Hr Ex (drawn_ok n P M s HS Hs)) as (_ & ->). reflexivity. }
    rewrite !HE, expect_last, <- expect_plus. apply expect_ext. intros s Hs. pose proof Hs as (Hls & _).
    transitivity (mean P (fun a => total N (fun k => nth k (lerrs mu w0 s) 0 ^ 2) * 1 + lerr (lrun mu w0 s) a ^ 2)).
    - apply mean_ext. intros a Ha. rewrite lerrs_last.
      pose proof (total_app_last (lerrs mu w0 s) (lerr (lrun mu w0 s) a) (fun r => r ^ 2)) as Ht. cbv beta in Ht.
      rewrite lerrs_length, Hls, Nat.add_1_r in Ht. rewrite Ht. ring.
    - rewrite mean_plus, mean_scal, mean_const by exact HP. rewrite Rmult_1_r. reflexivity.
  Qed.

  Lemma expect_weights n (o : obj) (P : law sample) N (f : rvec -> R) : reachable n o -> o_ext o = XLMS -> samples_of n P ->
    expect P N (fun s => f (weights_after o s)) = expect P N (fun s => f (lrun (o_mu o) (o_w o) s)).
  Proof.
    intros Hr Ex HS. apply expect_ext. intros s Hs.
    destruct (lms_run n o s Hr Ex (drawn_ok n P N s HS Hs)) as (-> & _). reflexivity.
  Qed.

  (** *** How well LMS does on N independent samples, compared with the best fixed weights ws: the average of the sum of
      its squared errors, and the average squared distance left at the end. *)
  Theorem C72_error_energy : forall n (o : obj) (P : law sample) ws X N,
    reachable n o -> o_ext o = XLMS -> is_law P -> samples_of n P -> best_filter n P ws ->
    0 < o_mu o -> (forall a, In a (map snd P) -> normsq (fst a) <= X) ->
    (2 - o_mu o * X) * energy_avg o P N + expect P N (fun s => distsq (weights_after o s) ws) / o_mu o
      <= 2 * INR N * mse_of P ws + distsq (o_w o) ws / o_mu o.
  Proof.
    intros n o P ws X N Hr Ex HP HS HB Hmu HX. pose proof (reachable_wf _ _ Hr) as (Lw & _).
    pose proof (best_normal n P ws HP HS HB) as HN. pose proof HB as (Lws & _).
    rewrite (expect_weights n o P N (fun w => distsq w ws) Hr Ex HS). set (mu := o_mu o) in *. set (w0 := o_w o) in *.
    induction N as [|N IH].
    - unfold energy_avg. cbn [expect INR lrun fold_left]. unfold total. cbn [seq map Rsum]. fold (lrun mu w0 []). lra.
    - rewrite (energy_step n) by assumption. fold mu w0. rewrite S_INR.
      set (M := expect P N (fun s => mse_of P (lrun mu w0 s))).
      set (D := expect P N (fun s => distsq (lrun mu w0 s) ws)) in *. set (J := mse_of P ws) in *.
      assert (H : expect P (S N) (fun s => distsq (lrun mu w0 s) ws) <= D + mu * (2 * J + (- (2 - mu * X)) * M)).
      { rewrite expect_last. unfold D, M. rewrite <- expect_scal. rewrite <- (expect_const P N (2 * J) HP), <- expect_plus, <- expect_scal, <- expect_plus.
        apply expect_le; [exact HP|]. intros s Hs. pose proof (drawn_ok n P N s HS Hs) as HF.
        pose proof (step_avg n P ws (lrun mu w0 s) mu X HP HS HN Lws (lrun_length n mu s w0 Lw HF) ltac:(lra) HX) as Hst.
        eapply Rle_trans; [|eapply Rle_trans; [exact Hst|]].
        - apply Req_le. apply mean_ext. intros a _. rewrite lrun_last. reflexivity.
        - apply Req_le. fold J. ring. }
      set (D' := expect P (S N) (fun s => distsq (lrun mu w0 s) ws)) in *.
      assert (H' : D' / mu <= D / mu + (2 * J + (- (2 - mu * X)) * M)).
      { apply Rmult_le_reg_r with mu; [exact Hmu|].
        replace (D' / mu * mu) with D' by (field; lra).
        replace ((D / mu + (2 * J + - (2 - mu * X) * M)) * mu) with (D + mu * (2 * J + - (2 - mu * X) * M)) by (field; lra). exact H. }
      assert (E1 : (2 - mu * X) * (energy_avg o P N + M) = (2 - mu * X) * energy_avg o P N + (2 - mu * X) * M) by ring.
      assert (E2 : 2 * (INR N + 1) * J = 2 * INR N * J + 2 * J) by ring. lra.
  Qed.

  (** On average LMS cannot beat the best fixed weights ... *)
  Theorem C72_no_better : forall n (o : obj) (P : law sample) ws N,
    reachable n o -> o_ext o = XLMS -> is_law P -> samples_of n P -> best_filter n P ws ->
    INR N * mse_of P ws <= energy_avg o P N.
  Proof.
    intros n o P ws N Hr Ex HP HS HB. pose proof (reachable_wf _ _ Hr) as (Lw & _).
    induction N as [|N IH].
    - unfold energy_avg. cbn [expect INR]. unfold total. cbn [seq map Rsum]. lra.
    - rewrite (energy_step n) by assumption. rewrite S_INR, Rmult_plus_distr_r, Rmult_1_l. apply Rplus_le_compat; [exact IH|].
      rewrite <- (expect_const P N (mse_of P ws) HP). apply expect_le; [exact HP|]. intros s Hs. apply HB.
      apply lrun_length; [exact Lw|]. exact (drawn_ok n P N s HS Hs).
  Qed.

  (** ... and it comes as close as wanted: for every distribution and every tolerance there is a learning rate below
      which, for all long enough records, the average mean squared error is within the tolerance of the best. *)
  Theorem C72_near_optimal : forall n (P : law sample) ws delta,
    is_law P -> samples_of n P -> best_filter n P ws -> 0 < delta ->
    exists mu0, 0 < mu0 /\
      forall o : obj, reachable n o -> o_ext o = XLMS -> 0 < o_mu o <= mu0 ->
      exists N0, (0 < N0)%nat /\ forall N, (N0 <= N)%nat ->
        mse_of P ws <= energy_avg o P N / INR N <= mse_of P ws + delta.
  Proof.
    intros n P ws delta HP HS HB Hd. set (J := mse_of P ws).
    assert (HJ : 0 <= J).
    { unfold J, mse_of. rewrite <- (mean_const P 0 HP). apply mean_le; [exact HP|]. intros a _. apply pow2_ge_0. }
    assert (exists X, 0 < X /\ forall a, In a (map snd P) -> normsq (fst a) <= X) as (X & HX0 & HX).
    { exists (1 + Rsum (map (fun a => normsq (fst a)) (map snd P))).
      assert (Hs : forall l : list sample, 0 <= Rsum (map (fun a => normsq (fst a)) l) /\
                     forall a, In a l -> normsq (fst a) <= Rsum (map (fun a => normsq (fst a)) l)).
      { induction l as [|b l (I1 & I2)]; [split; [simpl; lra|intros a []]|]. cbn [map Rsum]. pose proof (normsq_nonneg (fst b)).
        split; [lra|]. intros a [<-|Ha]; [lra|]. specialize (I2 a Ha). lra. }
      destruct (Hs (map snd P)) as (I1 & I2). split; [lra|]. intros a Ha. specialize (I2 a Ha). lra. }
    (* mu X <= 1 and mu X (J + delta) <= delta *)
    assert (HJd : 0 < J + delta) by lra.
    set (mu0 := Rmin (/ X) (delta / (X * (J + delta)))).
    exists mu0. split.
    { unfold mu0. apply Rmin_pos; [apply Rinv_0_lt_compat; exact HX0|]. apply Rdiv_lt_0_compat; [lra|]. apply Rmult_lt_0_compat; lra. }
    intros o Hr Ex (Hmu & Hle). set (mu := o_mu o) in *. set (D := distsq (o_w o) ws).
    assert (HD : 0 <= D) by apply normsq_nonneg.
    assert (H1 : mu * X <= 1).
    { apply Rle_trans with (/ X * X); [|rewrite Rinv_l; lra]. apply Rmult_le_compat_r; [lra|].
      eapply Rle_trans; [exact Hle|apply Rmin_l]. }
    assert (H2 : mu * X * (J + delta) <= delta).
    { apply Rle_trans with (delta / (X * (J + delta)) * (X * (J + delta))).
      - rewrite Rmult_assoc. apply Rmult_le_compat_r; [apply Rlt_le, Rmult_lt_0_compat; lra|]. eapply Rle_trans; [exact Hle|apply Rmin_r].
      - apply Req_le. field. split; lra. }
    destruct (archimed_cor1 (delta * mu / (D + 1))) as (N0 & HN0 & HN0').
    { apply Rdiv_lt_0_compat; [apply Rmult_lt_0_compat; lra|lra]. }
    exists N0. split; [exact HN0'|]. intros N HN.
    assert (HNp : 0 < INR N) by (apply lt_0_INR; lia).
    pose proof (C72_error_energy n o P ws X N Hr Ex HP HS HB Hmu HX) as HE. fold mu J D in HE.
    pose proof (C72_no_better n o P ws N Hr Ex HP HS HB) as HL. fold J in HL.
    set (En := energy_avg o P N) in *.
    assert (HF : 0 <= expect P N (fun s => distsq (weights_after o s) ws) / mu).
    { apply Rmult_le_pos; [|apply Rlt_le, Rinv_0_lt_compat; exact Hmu].
      rewrite <- (expect_const P N 0 HP). apply expect_le; [exact HP|]. intros s _. apply normsq_nonneg. }
    assert (HDN : D / mu <= INR N * delta).
    { assert (HN0N : INR N0 <= INR N) by (apply le_INR; exact HN).
      assert (HN0p : 0 < INR N0) by (apply lt_0_INR; exact HN0').
      assert (1 < INR N0 * (delta * mu / (D + 1))).
      { apply Rmult_lt_reg_l with (/ INR N0); [apply Rinv_0_lt_compat; exact HN0p|].
        rewrite <- Rmult_assoc, Rinv_l by lra. lra. }
      assert (H3 : D + 1 < INR N0 * (delta * mu)).
      { apply Rmult_lt_reg_r with (/ (D + 1)); [apply Rinv_0_lt_compat; lra|]. rewrite Rinv_r by lra.
        unfold Rdiv in H. rewrite <- Rmult_assoc in H. exact H. }
      apply Rmult_le_reg_r with mu; [exact Hmu|]. replace (D / mu * mu) with D by (field; lra).
      assert (0 <= delta * mu) by (apply Rmult_le_pos; lra).
      assert (INR N0 * (delta * mu) <= INR N * (delta * mu)) by (apply Rmult_le_compat_r; auto). lra. }
    split; apply Rmult_le_reg_r with (INR N); try exact HNp; replace (En / INR N * INR N) with En by (field; lra).
    - lra.
    - (* (2 - mu X) En <= 2 N J + N delta <= (2 - mu X) N (J + delta) *)
      assert (H4 : 2 * J + delta <= (2 - mu * X) * (J + delta)) by lra.
      assert (H5 : INR N * (2 * J + delta) <= INR N * ((2 - mu * X) * (J + delta))) by (apply Rmult_le_compat_l; lra).
      apply Rmult_le_reg_l with (2 - mu * X); [lra|]. lra.
  Qed.

  (** the hypotheses are met: a fair choice between two contradictory samples of one input and a third one; no fixed
      weights fit them, the best ones err by 2/3 *)
  Definition P3 : law sample := [(1 / 3, ([1; 0], 1)); (1 / 3, ([1; 0], 3)); (1 / 3, ([1; 1], 5))].
  Example C72_hypotheses :
    is_law P3 /\ samples_of 2 P3 /\ best_filter 2 P3 [2; 3] /\ mse_of P3 [2; 3] = 2 / 3 /\
    (exists o : obj, reachable 2 o /\ o_ext o = XLMS /\ 0 < o_mu o) /\
    (forall a, In a (map snd P3) -> normsq (fst a) <= 2).
  Proof.
    split; [split; [repeat constructor; simpl; lra|unfold P3; simpl; lra]|]. split; [repeat constructor|].
    assert (HM : forall a b, mse_of P3 [a; b] = 2 / 3 + 2 / 3 * (a - 2) ^ 2 + 1 / 3 * (a + b - 5) ^ 2).
    { intros a b. unfold mse_of, mean, P3. simpl. field. }
    split; [split; [reflexivity|]|split; [rewrite HM; field|split]].
    - intros [|a [|b [|c v]]] Lv; try discriminate. rewrite !HM. pose proof (pow2_ge_0 (a - 2)). pose proof (pow2_ge_0 (a + b - 5)). lra.
    - exists (fresh2 (1 / 2) XLMS). split; [apply (fresh2_reachable solve (1 / 2) None None None KLMS); reflexivity|].
      split; [reflexivity|simpl; lra].
    - intros a [<-|[<-|[<-|[]]]]; unfold normsq; simpl; lra.
  Qed.
End S.
