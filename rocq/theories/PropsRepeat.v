(** C92: what each class does with one sample presented over and over. *)
From Coq Require Import Reals Lra Psatz.
From Verif Require Import Py Num Numpy Filters Registry Spec StructProofs RunProofs Reach RVec RFilter PropsStability PropsConverge.
Open Scope R_scope.

(** ** Specification *)
(** |x_1| + ... + |x_n| *)
Definition norm1 (x : rvec) : R := fold_right (fun a s => Rabs a + s) 0 x.

Section Spec.
  Variable solve : list rvec -> list rvec -> option (list rvec).
  #[local] Hint Extern 0 (Num R) => exact (RNum solve) : typeclass_instances.
  Notation obj := (obj R).

  (** e is the series of errors that run reports when it is given the sample (d, x) N times *)
  Definition repeated (o : obj) (d : R) (x : rvec) (N : nat) (e : rvec) : Prop :=
    exists o' y w, run (repeat d N) (repeat x N) o = (o', Ok (y, e, w)).
  (** the errors tend to 0; they grow beyond every bound *)
  Definition dies_out (o : obj) d x : Prop :=
    forall ep, 0 < ep -> exists K, forall N e, repeated o d x N e -> forall k, (K <= k < N)%nat -> Rabs (nth k e 0) < ep.
  Definition explodes (o : obj) d x : Prop :=
    forall B, exists K, forall N e, repeated o d x N e -> forall k, (K <= k < N)%nat -> B < Rabs (nth k e 0).

  (** the gains of the three families for the input x *)
  Definition linear_gain (o : obj) x (a : R) : Prop :=
    (o_ext o = XLMS /\ a = o_mu o * normsq x) \/ (exists eps, o_ext o = XNLMS eps /\ a = o_mu o * normsq x / (eps + normsq x)).
  Definition cubic_gain (o : obj) x (a : R) : Prop :=
    (o_ext o = XLMF /\ a = o_mu o * normsq x) \/ (exists eps, o_ext o = XNLMF eps /\ a = o_mu o * normsq x / (eps + normsq x)).
  Definition sign_gain (o : obj) x (a : R) : Prop :=
    (o_ext o = XSSLMS /\ a = o_mu o * norm1 x) \/ (exists eps, o_ext o = XNSSLMS eps /\ a = o_mu o * norm1 x / (eps + normsq x)).
End Spec.

(** ** Sequences e(k+1) = e(k) - f (e(k)) *)
Definition seq (f : R -> R) (e0 : R) (k : nat) : R := Nat.iter k (fun e => e - f e) e0.
Lemma seq_S f e0 k : seq f e0 (S k) = seq f e0 k - f (seq f e0 k).
Proof. reflexivity. Qed.
Lemma seq_tail f e0 j k : seq f e0 (j + k) = seq f (seq f e0 k) j.
Proof. induction j as [|j IH]; [reflexivity|]. cbn [Nat.add]. rewrite !seq_S, IH. reflexivity. Qed.

(** non-increasing, and shrinking by a factor as long as it is not small: tends to 0 *)
Lemma shrink f e0 : (forall k, Rabs (seq f e0 (S k)) <= Rabs (seq f e0 k)) ->
  (forall ep, 0 < ep -> exists q, 0 <= q < 1 /\ forall k, ep <= Rabs (seq f e0 k) -> Rabs (seq f e0 (S k)) <= q * Rabs (seq f e0 k)) ->
  forall ep, 0 < ep -> exists K, forall k, (K <= k)%nat -> Rabs (seq f e0 k) < ep.
Proof.
  intros Hm Hq ep Hep. destruct (Hq ep Hep) as (q & Hq1 & H).
  assert (M : forall j k, (k <= j)%nat -> Rabs (seq f e0 j) <= Rabs (seq f e0 k)).
  { induction j as [|j IH]; intros k Hk; [replace k with 0%nat by lia; lra|].
    destruct (Nat.eq_dec k (S j)) as [->|Hn]; [lra|]. eapply Rle_trans; [apply Hm|apply IH; lia]. }
  destruct (pow_lt_1_zero q ltac:(rewrite Rabs_pos_eq; lra) (ep / (Rabs e0 + 1))) as (K & HK).
  { apply Rdiv_lt_0_compat; [lra|]. pose proof (Rabs_pos e0). lra. }
  exists K. intros k Hk. eapply Rle_lt_trans; [apply (M k K Hk)|].
  destruct (Rlt_le_dec (Rabs (seq f e0 K)) ep) as [|Hge]; [assumption|]. exfalso.
  assert (G : forall j, (j <= K)%nat -> Rabs (seq f e0 j) <= q ^ j * Rabs e0).
  { induction j as [|j IH]; intros Hj; [cbn; lra|]. specialize (IH ltac:(lia)).
    eapply Rle_trans; [apply H; eapply Rle_trans; [exact Hge|apply M; lia]|]. cbn [pow]. rewrite Rmult_assoc. apply Rmult_le_compat_l; [lra|exact IH]. }
  specialize (G K (le_n K)). specialize (HK K (le_n K)). pose proof (Rabs_pos e0) as P. rewrite Rabs_pos_eq in HK by (apply pow_le; lra).
  apply Rmult_lt_compat_r with (r := Rabs e0 + 1) in HK; [|lra]. unfold Rdiv in HK. rewrite Rmult_assoc, Rinv_l, Rmult_1_r in HK by lra.
  assert (0 <= q ^ K) by (apply pow_le; lra). nra.
Qed.

Lemma seq_linear a e0 k : seq (Rmult a) e0 k = (1 - a) ^ k * e0.
Proof. induction k as [|k IH]; [cbn; ring|]. rewrite seq_S, IH. cbn [pow]. ring. Qed.

Section Cubic.
  Variables (a e0 : R).
  Hypothesis Ha : 0 <= a.
  Let f := fun e => a * e ^ 3.
  Lemma cubic_S k : seq f e0 (S k) = seq f e0 k * (1 - a * seq f e0 k ^ 2).
  Proof. rewrite seq_S. unfold f at 2. ring. Qed.
  Lemma sq_abs u : u ^ 2 = Rabs u * Rabs u.
  Proof. rewrite <- Rabs_mult, Rabs_pos_eq; [ring|]. pose proof (Rle_0_sqr u). unfold Rsqr in *. lra. Qed.
  Lemma cubic_le : a * e0 ^ 2 <= 2 -> forall k, Rabs (seq f e0 k) <= Rabs e0 /\ Rabs (seq f e0 (S k)) <= Rabs (seq f e0 k).
  Proof.
    intros H. assert (step : forall k, Rabs (seq f e0 k) <= Rabs e0 -> Rabs (seq f e0 (S k)) <= Rabs (seq f e0 k)).
    { intros k Hk. rewrite cubic_S, Rabs_mult. pose proof (Rabs_pos (seq f e0 k)) as P. rewrite sq_abs in *. pose proof (Rabs_pos e0) as P0.
      assert (S : Rabs (seq f e0 k) * Rabs (seq f e0 k) <= Rabs e0 * Rabs e0) by (apply Rmult_le_compat; auto).
      assert (A : Rabs (1 - a * (Rabs (seq f e0 k) * Rabs (seq f e0 k))) <= 1).
      { apply Rabs_le. assert (0 <= a * (Rabs (seq f e0 k) * Rabs (seq f e0 k))) by (apply Rmult_le_pos; [lra|apply Rmult_le_pos; auto]).
        assert (a * (Rabs (seq f e0 k) * Rabs (seq f e0 k)) <= a * (Rabs e0 * Rabs e0)) by (apply Rmult_le_compat_l; auto). lra. }
      apply Rle_trans with (Rabs (seq f e0 k) * 1); [apply Rmult_le_compat_l; auto|lra]. }
    induction k as [|k (IH1 & IH2)].
    - split; [right; reflexivity|apply step; right; reflexivity].
    - assert (Rabs (seq f e0 (S k)) <= Rabs e0) by lra. split; [assumption|apply step; assumption].
  Qed.
  Lemma cubic_in : 0 < a -> a * e0 ^ 2 < 2 -> forall ep, 0 < ep -> exists K, forall k, (K <= k)%nat -> Rabs (seq f e0 k) < ep.
  Proof.
    intros Hp H. pose proof (cubic_le ltac:(lra)) as C. apply shrink; [apply C|]. intros ep Hep.
    set (q := Rmax (Rmax (1 - a * (ep * ep)) (a * e0 ^ 2 - 1)) 0). exists q.
    assert (Q1 : 1 - a * (ep * ep) <= q) by (unfold q; eapply Rle_trans; [apply Rmax_l|apply Rmax_l]).
    assert (Q2 : a * e0 ^ 2 - 1 <= q) by (unfold q; eapply Rle_trans; [apply Rmax_r|apply Rmax_l]).
    assert (Q0 : 0 <= q) by apply Rmax_r. split.
    { split; [exact Q0|]. unfold q. assert (0 < a * (ep * ep)) by (repeat apply Rmult_lt_0_compat; lra). repeat apply Rmax_lub_lt; lra. }
    intros k Hk. rewrite cubic_S, Rabs_mult, (Rmult_comm q). apply Rmult_le_compat_l; [apply Rabs_pos|].
    destruct (C k) as (C1 & _). rewrite !sq_abs in *. pose proof (Rabs_pos (seq f e0 k)) as P. pose proof (Rabs_pos e0) as P0.
    assert (S1 : ep * ep <= Rabs (seq f e0 k) * Rabs (seq f e0 k)) by (apply Rmult_le_compat; lra).
    assert (S2 : Rabs (seq f e0 k) * Rabs (seq f e0 k) <= Rabs e0 * Rabs e0) by (apply Rmult_le_compat; auto).
    apply Rmult_le_compat_l with (r := a) in S1, S2; auto. apply Rabs_le. lra.
  Qed.
  Lemma cubic_edge : a * e0 ^ 2 = 2 -> forall k, seq f e0 k = (-1) ^ k * e0.
  Proof.
    intros H. induction k as [|k IH]; [cbn; ring|]. rewrite cubic_S, IH. replace (((-1) ^ k * e0) ^ 2) with (e0 ^ 2).
    - rewrite H. cbn [pow]. ring.
    - rewrite Rpow_mult_distr, <- pow_mult, (Nat.mul_comm k 2), pow_mult. replace ((-1) ^ 2) with 1 by ring. rewrite pow1. ring.
  Qed.
  Lemma cubic_out : 2 < a * e0 ^ 2 -> forall k, (a * e0 ^ 2 - 1) ^ k * Rabs e0 <= Rabs (seq f e0 k).
  Proof.
    intros H. pose proof (Rabs_pos e0) as P0. assert (G : forall k, Rabs e0 <= Rabs (seq f e0 k) /\ (a * e0 ^ 2 - 1) ^ k * Rabs e0 <= Rabs (seq f e0 k)).
    { induction k as [|k (IH1 & IH2)]; [cbn; split; lra|]. rewrite cubic_S, Rabs_mult. pose proof (Rabs_pos (seq f e0 k)) as P.
      assert (S2 : a * (Rabs e0 * Rabs e0) <= a * (Rabs (seq f e0 k) * Rabs (seq f e0 k))) by (apply Rmult_le_compat_l; [lra|apply Rmult_le_compat; auto]).
      rewrite !sq_abs in *. set (b := a * (Rabs e0 * Rabs e0)) in *.
      assert (F : b - 1 <= Rabs (1 - a * (Rabs (seq f e0 k) * Rabs (seq f e0 k)))) by (rewrite Rabs_left by lra; lra).
      assert (M : Rabs (seq f e0 k) * (b - 1) <= Rabs (seq f e0 k) * Rabs (1 - a * (Rabs (seq f e0 k) * Rabs (seq f e0 k)))) by (apply Rmult_le_compat_l; auto).
      split.
      - assert (Rabs (seq f e0 k) * 1 <= Rabs (seq f e0 k) * (b - 1)) by (apply Rmult_le_compat_l; lra). lra.
      - cbn [pow]. assert ((b - 1) * ((b - 1) ^ k * Rabs e0) <= (b - 1) * Rabs (seq f e0 k)) by (apply Rmult_le_compat_l; lra). lra. }
    intros k. apply G.
  Qed.
End Cubic.

Section Sign.
  Variables (a e0 : R).
  Hypothesis Ha : 0 < a.
  Let f := fun e => a * Rsgn e.
  Lemma sgn_pos e : 0 < e -> Rsgn e = 1.
  Proof. intros H. unfold Rsgn. destruct (Rlt_dec e 0); [lra|]. destruct (Rlt_dec 0 e); [reflexivity|lra]. Qed.
  Lemma sgn_neg e : e < 0 -> Rsgn e = -1.
  Proof. intros H. unfold Rsgn. destruct (Rlt_dec e 0); [reflexivity|lra]. Qed.
  Lemma sgn_0 : Rsgn 0 = 0.
  Proof. unfold Rsgn. destruct (Rlt_dec 0 0); lra. Qed.
  Lemma sign_far k : a <= Rabs (seq f e0 k) -> Rabs (seq f e0 (S k)) = Rabs (seq f e0 k) - a.
  Proof.
    rewrite seq_S. unfold f at 3. set (e := seq f e0 k). intros H. destruct (Rtotal_order e 0) as [He|[He|He]].
    - rewrite sgn_neg by exact He. rewrite (Rabs_left e He) in *. rewrite Rabs_left1 by lra. lra.
    - rewrite He, Rabs_R0 in H. lra.
    - rewrite sgn_pos by exact He. rewrite (Rabs_pos_eq e) in * by lra. rewrite Rabs_pos_eq by lra. lra.
  Qed.
  Lemma sign_near k : 0 < Rabs (seq f e0 k) <= a -> Rabs (seq f e0 (S k)) = a - Rabs (seq f e0 k).
  Proof.
    rewrite seq_S. unfold f at 4. set (e := seq f e0 k). intros H. destruct (Rtotal_order e 0) as [He|[He|He]].
    - rewrite sgn_neg by exact He. rewrite (Rabs_left e He) in *. rewrite Rabs_pos_eq by lra. lra.
    - rewrite He, Rabs_R0 in H. lra.
    - rewrite sgn_pos by exact He. rewrite (Rabs_pos_eq e) in * by lra. rewrite Rabs_left1 by lra. lra.
  Qed.
  Lemma sign_cycle k : 0 < Rabs (seq f e0 k) < a -> seq f e0 (S (S k)) = seq f e0 k.
  Proof.
    rewrite !seq_S. set (e := seq f e0 k). unfold f. intros H. destruct (Rtotal_order e 0) as [He|[He|He]].
    - rewrite (Rabs_left e He) in *. rewrite (sgn_neg e) by exact He. rewrite sgn_pos by lra. lra.
    - rewrite He, Rabs_R0 in H. lra.
    - rewrite (Rabs_pos_eq e) in * by lra. rewrite (sgn_pos e) by exact He. rewrite sgn_neg by lra. lra.
  Qed.
  Lemma sign_stay k : Rabs (seq f e0 k) <= a -> Rabs (seq f e0 (S k)) <= a.
  Proof.
    intros H. destruct (Rle_lt_dec (Rabs (seq f e0 k)) 0) as [H0|H0].
    - assert (E : seq f e0 k = 0).
      { destruct (Req_dec (seq f e0 k) 0) as [|Hn]; [assumption|]. apply Rabs_pos_lt in Hn. lra. }
      rewrite seq_S, E. unfold f. rewrite sgn_0. rewrite Rmult_0_r, Rminus_0_r, Rabs_R0. lra.
    - rewrite (sign_near k) by lra. lra.
  Qed.
  Lemma sign_settles k : Rabs e0 <= INR (S k) * a -> Rabs (seq f e0 k) <= a.
  Proof.
    intros H. assert (G : forall j, Rabs (seq f e0 j) <= a \/ Rabs (seq f e0 j) = Rabs e0 - INR j * a).
    { induction j as [|j [IH|IH]].
      - right. cbn. ring.
      - left. apply sign_stay. exact IH.
      - destruct (Rle_lt_dec a (Rabs (seq f e0 j))) as [Hb|Hb].
        + right. rewrite sign_far by exact Hb. rewrite IH, S_INR. ring.
        + left. apply sign_stay. lra. }
    destruct (G k) as [Hk|Hk]; [exact Hk|]. rewrite Hk. rewrite S_INR in H. lra.
  Qed.
End Sign.

(** a response with the sign of the error and at most B never drives the error above max(|e|, B) *)
Lemma bounded_response f e0 B : (forall e, 0 <= e -> 0 <= f e <= B) -> (forall e, f (- e) = - f e) ->
  forall k, Rabs (seq f e0 k) <= Rmax (Rabs e0) B.
Proof.
  intros Hp Ho. induction k as [|k IH]; [apply Rmax_l|]. rewrite seq_S. set (e := seq f e0 k) in *.
  pose proof (Rmax_r (Rabs e0) B) as HB.
  destruct (Rle_lt_dec 0 e) as [He|He].
  - rewrite (Rabs_pos_eq e) in IH by exact He. pose proof (Hp e He). apply Rabs_le. lra.
  - rewrite (Rabs_left e) in IH by exact He. pose proof (Hp (- e) ltac:(lra)) as H. rewrite Ho in H. apply Rabs_le. lra.
Qed.

Section C92.
  Variable solve : list rvec -> list rvec -> option (list rvec).
  #[local] Hint Extern 0 (Num R) => exact (RNum solve) : typeclass_instances.
  Notation obj := (obj R).
  #[local] Notation repeated := (repeated solve).
  #[local] Notation dies_out := (dies_out solve).
  #[local] Notation explodes := (explodes solve).

  Lemma nth_rep {A} (a b : A) N k : (k < N)%nat -> nth k (repeat a N) b = a.
  Proof. intros Hk. rewrite (nth_indep _ b a) by (rewrite repeat_length; exact Hk). apply nth_repeat. Qed.

  (** the error series is the sequence of the response f, where f e = (increment for error e) . x *)
  Lemma follows n (o : obj) d x f : reachable n o -> length x = n ->
    (forall e, exists dw, textbook (o_ext o) (o_mu o) e x = Some dw /\ Rdot dw x = f e) ->
    forall N e, repeated o d x N e -> forall k, (k < N)%nat -> nth k e 0 = seq f (d - Rdot (o_w o) x) k.
  Proof.
    intros Hr Lx Hf N e (o' & y & w & HR). pose proof (reachable_wf _ _ Hr) as Hwf. pose proof Hwf as (Lw & _).
    assert (Hx : rowsl n (repeat x N)) by (apply Forall_forall; intros u Hu; apply repeat_spec in Hu; subst u; exact Lx).
    assert (Ht : forall e v, textbook (o_ext o) (o_mu o) e v <> None).
    { intros e1 v H. destruct (Hf 0) as (dw & E & _). destruct (textbook_some _ _ _ _ e1 v _ E) as (dw' & E'). congruence. }
    induction k as [|k IH]; intros Hk.
    - destruct (run_textbook solve n o o' _ _ y e w 0 Hwf Hx Ht HR ltac:(rewrite repeat_length; lia)) as (dw & _ & _ & Hy & He & _).
      rewrite !nth_rep in * by lia. rewrite He, Hy. cbn [seq Nat.iter]. f_equal. f_equal.
      destruct (run_eq n o (repeat d N) (repeat x N) Hwf Hx) as (h & E & _); [rewrite !repeat_length; reflexivity|destruct N; [lia|discriminate]|].
      rewrite HR in E. destruct (snd (adapt_all (repeat d N) (repeat x N) o)); [|discriminate]. cbn in E. injection E as _ _ _ ->.
      destruct N; [lia|reflexivity].
    - specialize (IH ltac:(lia)).
      destruct (run_textbook solve n o o' _ _ y e w k Hwf Hx Ht HR ltac:(rewrite repeat_length; lia)) as (dw & Hd & Hw & Hy & He & L1 & _).
      destruct (run_textbook solve n o o' _ _ y e w (S k) Hwf Hx Ht HR ltac:(rewrite repeat_length; lia)) as (_ & _ & _ & Hy' & He' & _).
      rewrite !nth_rep in * by lia. destruct (Hf (nth k e 0)) as (dw' & E1 & E2). rewrite Hd in E1. injection E1 as <-.
      pose proof (textbook_length _ _ _ _ _ Hd) as Ld.
      rewrite He', Hy', Hw, Rdot_vadd_l by congruence. rewrite seq_S, <- IH, <- E2, He, Hy. ring.
  Qed.

  Lemma linear_seq n (o : obj) d x a : reachable n o -> length x = n -> linear_gain o x a ->
    forall N e, repeated o d x N e -> forall k, (k < N)%nat -> nth k e 0 = seq (Rmult a) (d - Rdot (o_w o) x) k.
  Proof.
    intros Hr Lx Hg. apply (follows n o d x (Rmult a) Hr Lx). intros e. destruct Hg as [(E & ->)|(eps & E & ->)]; rewrite E; eexists; (split; [reflexivity|]);
      rewrite Rdot_vsc_l; unfold normsq, Rdiv; ring.
  Qed.
  Lemma cubic_seq n (o : obj) d x a : reachable n o -> length x = n -> cubic_gain o x a ->
    forall N e, repeated o d x N e -> forall k, (k < N)%nat -> nth k e 0 = seq (fun e => a * e ^ 3) (d - Rdot (o_w o) x) k.
  Proof.
    intros Hr Lx Hg. apply (follows n o d x _ Hr Lx). intros e. destruct Hg as [(E & ->)|(eps & E & ->)]; rewrite E; eexists; (split; [reflexivity|]);
      rewrite Rdot_vsc_l; unfold normsq, Rdiv; ring.
  Qed.
  Lemma dot_sgn c g x : Rdot (map (fun u => c * Rsgn u * g) x) x = c * norm1 x * g.
  Proof.
    induction x as [|u x IH]; [cbn; ring|]. cbn [map]. change (c * Rsgn u * g * u + Rdot (map (fun u => c * Rsgn u * g) x) x = c * (Rabs u + norm1 x) * g).
    rewrite IH. replace (Rabs u) with (Rsgn u * u); [ring|]. unfold Rsgn, Rabs. destruct (Rlt_dec u 0), (Rcase_abs u); try lra. destruct (Rlt_dec 0 u); lra.
  Qed.
  Lemma sign_seq n (o : obj) d x a : reachable n o -> length x = n -> sign_gain o x a ->
    forall N e, repeated o d x N e -> forall k, (k < N)%nat -> nth k e 0 = seq (fun e => a * Rsgn e) (d - Rdot (o_w o) x) k.
  Proof.
    intros Hr Lx Hg. apply (follows n o d x _ Hr Lx). intros e. destruct Hg as [(E & ->)|(eps & E & ->)]; rewrite E; eexists; (split; [reflexivity|]);
      rewrite dot_sgn; unfold Rdiv; ring.
  Qed.

  (** *** C92.  LMS and NLMS: a geometric series; it converges for 0 < a < 2, explodes for a < 0 or a > 2. *)
  Theorem C92_LMS_NLMS : forall n (o : obj) d x a, reachable n o -> length x = n -> linear_gain o x a ->
    let e0 := d - Rdot (o_w o) x in
    (forall N e, repeated o d x N e -> forall k, (k < N)%nat -> nth k e 0 = (1 - a) ^ k * e0) /\
    (0 < a < 2 -> dies_out o d x) /\ (a < 0 \/ 2 < a -> e0 <> 0 -> explodes o d x).
  Proof.
    intros n o d x a Hr Lx Hg e0. pose proof (linear_seq n o d x a Hr Lx Hg) as S0.
    assert (S1 : forall N e, repeated o d x N e -> forall k, (k < N)%nat -> nth k e 0 = (1 - a) ^ k * e0).
    { intros N e He k Hk. rewrite (S0 N e He k Hk). apply seq_linear. }
    split; [exact S1|]. split.
    - intros Ha ep Hep. pose proof (Rabs_pos e0) as P. destruct (pow_lt_1_zero (1 - a) ltac:(apply Rabs_def1; lra) (ep / (Rabs e0 + 1))) as (K & HK).
      { apply Rdiv_lt_0_compat; lra. }
      exists K. intros N e He k Hk. rewrite (S1 N e He k) by lia. rewrite Rabs_mult. specialize (HK k ltac:(lia)).
      apply Rmult_lt_compat_r with (r := Rabs e0 + 1) in HK; [|lra]. unfold Rdiv in HK. rewrite Rmult_assoc, Rinv_l, Rmult_1_r in HK by lra.
      pose proof (Rabs_pos ((1 - a) ^ k)). nra.
    - intros Ha He0 B. destruct (Pow_x_infinity (1 - a) ltac:(destruct Ha; [rewrite Rabs_pos_eq by lra; lra|rewrite Rabs_left by lra; lra]) ((Rabs B + 1) / Rabs e0)) as (K & HK).
      exists K. intros N e He k Hk. rewrite (S1 N e He k) by lia. rewrite Rabs_mult. specialize (HK k ltac:(lia)). apply Rge_le in HK.
      assert (P : 0 < Rabs e0) by (apply Rabs_pos_lt; exact He0). apply Rmult_le_compat_r with (r := Rabs e0) in HK; [|lra].
      unfold Rdiv in HK. rewrite Rmult_assoc, Rinv_l, Rmult_1_r in HK by lra. pose proof (Rle_abs B). lra.
  Qed.

  (** LMF and NLMF: whether they converge depends on the size of the error; from the threshold on they never recover, and every
      positive rate has data beyond the threshold *)
  Theorem C92_LMF_NLMF : forall n (o : obj) d x a, reachable n o -> length x = n -> cubic_gain o x a -> 0 < a ->
    let e0 := d - Rdot (o_w o) x in
    (a * e0 ^ 2 < 2 -> dies_out o d x) /\
    (a * e0 ^ 2 = 2 -> forall N e, repeated o d x N e -> forall k, (k < N)%nat -> nth k e 0 = (-1) ^ k * e0) /\
    (2 < a * e0 ^ 2 -> explodes o d x /\
       forall N e, repeated o d x N e -> forall k, (k < N)%nat -> (a * e0 ^ 2 - 1) ^ k * Rabs e0 <= Rabs (nth k e 0)) /\
    (exists d', 2 < a * (d' - Rdot (o_w o) x) ^ 2).
  Proof.
    intros n o d x a Hr Lx Hg Ha e0. pose proof (cubic_seq n o d x a Hr Lx Hg) as S0. fold e0 in S0.
    split; [|split; [|split]].
    - intros H ep Hep. destruct (cubic_in a e0 ltac:(lra) Ha H ep Hep) as (K & HK). exists K. intros N e He k Hk. rewrite (S0 N e He k) by lia. apply HK. lia.
    - intros H N e He k Hk. rewrite (S0 N e He k Hk). apply cubic_edge. exact H.
    - intros H. pose proof (cubic_out a e0 ltac:(lra) H) as C.
      assert (P : 0 < Rabs e0). { apply Rabs_pos_lt. intros Z. rewrite Z in H. replace (a * 0 ^ 2) with 0 in H by ring. lra. }
      split; [|intros N e He k Hk; rewrite (S0 N e He k Hk); apply C].
      intros B. destruct (Pow_x_infinity (a * e0 ^ 2 - 1) ltac:(rewrite Rabs_pos_eq; lra) ((Rabs B + 1) / Rabs e0)) as (K & HK).
      exists K. intros N e He k Hk. rewrite (S0 N e He k) by lia. specialize (HK k ltac:(lia)). apply Rge_le in HK. specialize (C k).
      rewrite (Rabs_pos_eq (_ ^ k)) in HK by (apply pow_le; lra).
      apply Rmult_le_compat_r with (r := Rabs e0) in HK; [|lra]. unfold Rdiv in HK. rewrite Rmult_assoc, Rinv_l, Rmult_1_r in HK by lra. pose proof (Rle_abs B). lra.
    - exists (Rdot (o_w o) x + (2 + / a)). replace (Rdot (o_w o) x + (2 + / a) - Rdot (o_w o) x) with (2 + / a) by ring.
      replace (a * (2 + / a) ^ 2) with (4 * a + 4 + / a) by (field; lra). assert (0 < / a) by (apply Rinv_0_lt_compat; exact Ha). lra.
  Qed.

  (** SSLMS and NSSLMS: the error shrinks by a per sample until it is at most a, stays there, and never settles: unless it hits 0
      exactly it repeats with period two, the two absolute values adding up to a *)
  Theorem C92_SSLMS_NSSLMS : forall n (o : obj) d x a, reachable n o -> length x = n -> sign_gain o x a -> 0 < a ->
    forall N e, repeated o d x N e -> forall k, (k < N)%nat ->
    (Rabs (d - Rdot (o_w o) x) <= INR (S k) * a -> Rabs (nth k e 0) <= a) /\
    ((S k < N)%nat -> a <= Rabs (nth k e 0) -> Rabs (nth (S k) e 0) = Rabs (nth k e 0) - a) /\
    ((S k < N)%nat -> 0 < Rabs (nth k e 0) <= a -> Rabs (nth (S k) e 0) = a - Rabs (nth k e 0)) /\
    ((S (S k) < N)%nat -> 0 < Rabs (nth k e 0) < a -> nth (S (S k)) e 0 = nth k e 0).
  Proof.
    intros n o d x a Hr Lx Hg Ha N e He k Hk. pose proof (sign_seq n o d x a Hr Lx Hg N e He) as S0. set (e0 := d - Rdot (o_w o) x) in *.
    rewrite (S0 k Hk). split; [|split; [|split]].
    - apply sign_settles. exact Ha.
    - intros H1 H2. rewrite (S0 (S k) H1). apply sign_far; assumption.
    - intros H1 H2. rewrite (S0 (S k) H1). apply sign_near; assumption.
    - intros H1 H2. rewrite (S0 (S (S k)) H1). apply sign_cycle; assumption.
  Qed.

  (** Llncosh, GMCC with alpha = 2: no learning rate makes them explode on one sample *)
  Theorem C92_Llncosh : forall n (o : obj) d x la, reachable n o -> length x = n -> o_ext o = XLlncosh la -> 0 <= o_mu o -> 0 <= la ->
    forall N e, repeated o d x N e -> forall k, (k < N)%nat -> Rabs (nth k e 0) <= Rmax (Rabs (d - Rdot (o_w o) x)) (o_mu o * normsq x).
  Proof.
    intros n o d x la Hr Lx E Hm Hla N e He k Hk.
    rewrite (follows n o d x (fun e => o_mu o * tanh (la * e) * normsq x) Hr Lx) with (N := N) (e := e) (k := k); auto.
    2: { intros e1. rewrite E. eexists. split; [reflexivity|]. rewrite Rdot_vsc_l. reflexivity. }
    pose proof (normsq_nonneg x) as P.
    apply bounded_response.
    - intros u Hu. assert (T : 0 <= tanh (la * u)) by (apply tanh_pos; apply Rmult_le_pos; assumption).
      pose proof (tanh_abs_lt1 (la * u)) as T1. rewrite Rabs_pos_eq in T1 by exact T. cbv beta. split; [apply Rmult_le_pos; [apply Rmult_le_pos; assumption|exact P]|].
      apply Rle_trans with (o_mu o * 1 * normsq x); [apply Rmult_le_compat_r; [exact P|]; apply Rmult_le_compat_l; lra|right; ring].
    - intros u. replace (la * - u) with (- (la * u)) by ring. rewrite tanh_opp. ring.
  Qed.
  Theorem C92_GMCC : forall n (o : obj) d x la, reachable n o -> length x = n -> o_ext o = XGMCC la 2 -> 0 <= o_mu o -> 0 < la ->
    forall N e, repeated o d x N e -> forall k, (k < N)%nat -> Rabs (nth k e 0) <= Rmax (Rabs (d - Rdot (o_w o) x)) (o_mu o * sqrt la * normsq x).
  Proof.
    intros n o d x la Hr Lx E Hm Hla N e He k Hk.
    rewrite (follows n o d x (fun e => o_mu o * (2 * la * e * exp (- la * (e * e))) * normsq x) Hr Lx) with (N := N) (e := e) (k := k); auto.
    2: { intros u. rewrite E. eexists. split; [reflexivity|]. rewrite Rdot_vsc_l. fold (normsq x). f_equal.
      rewrite Rpowf_2 by apply Rabs_pos. rewrite Rpowf_1 by apply Rabs_pos.
      replace (Rabs u * Rabs u) with (u * u) by (rewrite <- Rabs_mult, Rabs_pos_eq; [reflexivity|apply Rle_0_sqr]).
      rewrite (Rmult_assoc _ (Rabs u)), abs_sgn. ring. }
    pose proof (normsq_nonneg x) as P.
    apply bounded_response.
    - intros u Hu. pose proof (exp_pos (- la * (u * u))) as X. split; [repeat apply Rmult_le_pos; lra|].
      apply Rmult_le_compat_r; [exact P|]. apply Rmult_le_compat_l; [exact Hm|].
      set (r := sqrt la). assert (Hr2 : r * r = la) by (apply sqrt_sqrt; lra). assert (Hr0 : 0 < r) by (apply sqrt_lt_R0; auto).
      pose proof (exp_ineq1_le (la * (u * u))) as H1.
      assert (H2 : exp (- la * (u * u)) * exp (la * (u * u)) = 1).
      { rewrite <- exp_plus. replace (- la * (u * u) + la * (u * u)) with 0 by ring. apply exp_0. }
      set (E1 := exp (- la * (u * u))) in *. set (E2 := exp (la * (u * u))) in *.
      assert (H4 : E1 * (1 + la * (u * u)) <= 1) by nra.
      assert (H5 : 2 * (r * u) <= 1 + la * (u * u)).
      { rewrite <- Hr2. pose proof (Rle_0_sqr (r * u - 1)) as Hs; unfold Rsqr in Hs. nra. }
      replace (2 * la * u * E1) with (r * (E1 * (2 * (r * u)))) by (rewrite <- Hr2; ring).
      apply Rle_trans with (r * 1); [|lra]. apply Rmult_le_compat_l; [lra|].
      apply Rle_trans with (E1 * (1 + la * (u * u))); [apply Rmult_le_compat_l; lra|exact H4].
    - intros u. replace (- u * - u) with (u * u) by ring. ring.
  Qed.

  (** ** The hypotheses are met, in every region *)
  Example C92_hypotheses : 
    let x := [1; 1] in
    (reachable 2 (fresh2 (1 / 2) XLMS) /\ linear_gain (fresh2 (1 / 2) XLMS) x 1) /\
    (reachable 2 (fresh2 (1 / 2) XLMF) /\ cubic_gain (fresh2 (1 / 2) XLMF) x 1 /\
       1 * (1 - Rdot (o_w (fresh2 (1 / 2) XLMF)) x) ^ 2 < 2 /\ 2 < 1 * (2 - Rdot (o_w (fresh2 (1 / 2) XLMF)) x) ^ 2) /\
    (reachable 2 (fresh2 (1 / 2) XSSLMS) /\ sign_gain (fresh2 (1 / 2) XSSLMS) x 1) /\
    (reachable 2 (fresh2 (1 / 2) (XLlncosh 3)) /\ reachable 2 (fresh2 (1 / 2) (XGMCC 3 2))) /\
    (forall N d, (0 < N)%nat -> exists e, repeated (fresh2 (1 / 2) XLMF) d x N e /\ exists e', repeated (fresh2 (1 / 2) XSSLMS) d x N e').
  Proof.
    intros x. assert (NX : normsq x = 2) by (unfold x, normsq; cbn; ring). assert (N1 : norm1 x = 2) by (unfold x; cbn; rewrite Rabs_R1; ring).
    assert (R1 : reachable 2 (fresh2 (1 / 2) XLMF)) by (apply (fresh2_reachable solve (1 / 2) None None None KLMF); reflexivity).
    assert (R2 : reachable 2 (fresh2 (1 / 2) XSSLMS)) by (apply (fresh2_reachable solve (1 / 2) None None None KSSLMS); reflexivity).
    split; [split; [apply (fresh2_reachable solve (1 / 2) None None None KLMS); reflexivity|left; split; [reflexivity|cbn [o_mu fresh2]; lra]]|].
    split. { split; [exact R1|]. split; [left; split; [reflexivity|cbn [o_mu fresh2]; lra]|]. cbn. split; lra. }
    split; [split; [exact R2|left; split; [reflexivity|cbn [o_mu fresh2]; lra]]|].
    split. { split; [apply (fresh2_reachable solve (1 / 2) None (Some 3) None KLlncosh); reflexivity|apply (fresh2_reachable solve (1 / 2) None (Some 3) (Some 2) KGMCC); reflexivity]. }
    intros N d HN. assert (Hx : rows_of 2 (repeat x N)) by (apply Forall_forall; intros u Hu; apply repeat_spec in Hu; subst u; reflexivity).
    assert (Hl : length (repeat d N) = length (repeat x N)) by (rewrite !repeat_length; reflexivity). assert (Hne : repeat x N <> []) by (destruct N; [lia|discriminate]).
    destruct (run_exists solve 2 _ (repeat d N) (repeat x N) R1 Hx Hl Hne ltac:(intros ex H; exact H)) as (o1 & y1 & e1 & w1 & H1).
    destruct (run_exists solve 2 _ (repeat d N) (repeat x N) R2 Hx Hl Hne ltac:(intros ex H; exact H)) as (o2 & y2 & e2 & w2 & H2).
    exists e1. split; [exists o1, y1, w1; exact H1|]. exists e2, o2, y2, w2. exact H2.
  Qed.
End C92.
