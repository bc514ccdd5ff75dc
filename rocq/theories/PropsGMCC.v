(** C98: GMCC: an error moves the weights the less the larger it is; so outliers do not hurt, and a filter that starts far away does not move;
    on noise-free endless data it identifies the system all the same (exact real arithmetic). *)
From Coq Require Import Reals Lra Psatz.
From Verif Require Import Py Num Numpy Filters Registry Spec StructProofs RunProofs Reach RVec RFilter PropsStability PropsNoise PropsConverge PropsSignSign.
Open Scope R_scope.

(** ** Real powers *)
Lemma Rpowf_pos a b : 0 < a -> Rpowf a b = Rpower a b.
Proof. intros H. unfold Rpowf. destruct (Req_EM_T a 0); [lra|reflexivity]. Qed.
Lemma Rpowf_zero b : b <> 0 -> Rpowf 0 b = 0.
Proof. intros H. unfold Rpowf. destruct (Req_EM_T 0 0); [|lra]. destruct (Req_EM_T b 0); [lra|reflexivity]. Qed.
Lemma Rpowf_split a b : 0 <= a -> b <> 0 -> b <> 1 -> Rpowf a b = a * Rpowf a (b - 1).
Proof.
  intros Ha Hb Hb1. destruct (Req_dec a 0) as [->|Hn]; [rewrite !Rpowf_zero by lra; ring|]. rewrite !Rpowf_pos by lra.
  rewrite <- (Rpower_1 a) at 2 by lra. rewrite <- Rpower_plus. f_equal. ring.
Qed.
Lemma Rpowf_mono a a' b : 0 <= a <= a' -> 0 <= b -> Rpowf a b <= Rpowf a' b.
Proof.
  intros (Ha & Hle) Hb. destruct (Req_dec a 0) as [->|Hn].
  - destruct (Req_dec b 0) as [->|Hb0]; [|rewrite Rpowf_zero by exact Hb0; apply Rpowf_nonneg].
    unfold Rpowf at 1. destruct (Req_EM_T 0 0); [|lra]. destruct (Req_EM_T 0 0); [|lra]. unfold Rpowf. destruct (Req_EM_T a' 0); [destruct (Req_EM_T 0 0); lra|]. rewrite Rpower_O by lra. lra.
  - rewrite !Rpowf_pos by lra. apply Rle_Rpower_l; lra.
Qed.
Lemma Rpowf_lt_inv a a' b : 0 <= a -> 0 < a' -> 0 < b -> Rpowf a b < Rpowf a' b -> a < a'.
Proof. intros Ha Ha' Hb H. destruct (Rlt_le_dec a a') as [|Hc]; [assumption|]. pose proof (Rpowf_mono a' a b ltac:(lra) ltac:(lra)). lra. Qed.
Lemma Rpowf_gt0 a b : 0 < a -> 0 < Rpowf a b.
Proof. intros H. rewrite Rpowf_pos by exact H. apply exp_pos. Qed.

(** t exp(-t) <= exp(-t/2) *)
Lemma t_exp t : 0 <= t -> t * exp (- t) <= exp (- (t / 2)).
Proof.
  intros Ht. assert (H : t <= exp (t / 2)).
  { assert (E : 1 + t / 4 <= exp (t / 4)). { destruct (Req_dec t 0) as [->|Hn]; [replace (0 / 4) with 0 by lra; rewrite exp_0; lra|]. left. apply exp_ineq1. lra. }
    replace (t / 2) with (t / 4 + t / 4) by lra. rewrite exp_plus. apply Rle_trans with ((1 + t / 4) * (1 + t / 4)); [pose proof (Rle_0_sqr (t / 4 - 1)) as Q; unfold Rsqr in Q; lra|]. apply Rmult_le_compat; lra. }
  replace (- (t / 2)) with (t / 2 + - t) by lra. rewrite exp_plus. apply Rmult_le_compat_r; [left; apply exp_pos|exact H].
Qed.

(** ** Specification: the largest change of a weight, per unit of its input, that an error of size h can cause *)
Definition influence (mu la al h : R) : R := mu * al * exp (- (la * Rpowf h al / 2)) / h.

Section S.
  Variable solve : list rvec -> list rvec -> option (list rvec).
  #[local] Hint Extern 0 (Num R) => exact (RNum solve) : typeclass_instances.
  Notation obj := (obj R).

  Lemma gmcc_step n (o o' : obj) d x y e w la al k : wf n o -> o_ext o = XGMCC la al -> rowsl n x -> run d x o = (o', Ok (y, e, w)) -> (k < length x)%nat ->
    wrow w (o_w o') (Datatypes.S k) = vadd (wrow w (o_w o') k)
      (vsc (o_mu o * la * al * exp (- la * Rpowf (Rabs (nth k e 0)) al) * Rpowf (Rabs (nth k e 0)) (al - 1) * Rsgn (nth k e 0)) (nth k x [])) /\
    nth k y 0 = Rdot (wrow w (o_w o') k) (nth k x []) /\ nth k e 0 = nth k d 0 - nth k y 0 /\
    length (wrow w (o_w o') k) = n /\ length (nth k x []) = n.
  Proof.
    intros Hr Ex Hx E Hk. assert (Ht : forall e v, textbook (o_ext o) (o_mu o) e v <> None) by (intros; rewrite Ex; discriminate).
    destruct (run_textbook solve n o o' d x y e w k Hr Hx Ht E Hk) as (dw & Htb & Hrow & Hy & He & Hl1 & Hl2).
    rewrite Ex in Htb. cbn [textbook] in Htb. apply (f_equal (fun r => match r with Some v => v | None => [] end)) in Htb. cbv beta iota in Htb. subst dw. auto.
  Qed.
  Lemma gain_le mu la al h : 0 <= mu -> 0 <= la -> 0 <= al -> 0 < h ->
    mu * la * al * exp (- la * Rpowf h al) * Rpowf h (al - 1) <= influence mu la al h.
  Proof.
    intros Hmu Hla Hal Hh. unfold influence. assert (E : Rpowf h (al - 1) = Rpowf h al / h).
    { rewrite !Rpowf_pos by exact Hh. unfold Rminus. rewrite Rpower_plus, Rpower_Ropp, Rpower_1 by exact Hh. reflexivity. }
    rewrite E. set (P := Rpowf h al). pose proof (t_exp (la * P) ltac:(apply Rmult_le_pos; [exact Hla|apply Rpowf_nonneg])) as T.
    replace (- la * P) with (- (la * P)) by ring. 
    replace (mu * la * al * exp (- (la * P)) * (P / h)) with (mu * al * (la * P * exp (- (la * P))) / h) by (field; lra).
    unfold Rdiv. apply Rmult_le_compat_r; [left; apply Rinv_0_lt_compat; exact Hh|]. apply Rmult_le_compat_l; [apply Rmult_le_pos; assumption|exact T].
  Qed.
  Lemma influence_mono mu la al h h' : 0 <= mu -> 0 <= la -> 0 <= al -> 0 < h <= h' -> influence mu la al h' <= influence mu la al h.
  Proof.
    intros Hmu Hla Hal (Hh & Hle). unfold influence, Rdiv. apply Rmult_le_compat.
    - apply Rmult_le_pos; [apply Rmult_le_pos; assumption|left; apply exp_pos].
    - left. apply Rinv_0_lt_compat. lra.
    - apply Rmult_le_compat_l; [apply Rmult_le_pos; assumption|]. pose proof (Rpowf_mono h h' al ltac:(lra) Hal) as M.
      assert (L : - (la * Rpowf h' al * / 2) <= - (la * Rpowf h al * / 2)) by nra. destruct (Rle_lt_or_eq_dec _ _ L) as [L1| ->]; [left; apply exp_increasing; exact L1|lra].
    - apply Rinv_le_contravar; lra.
  Qed.

  (** ** an error of size h or more changes weight i by at most influence(h) |x_i|, towards the target; influence(h) falls faster than exponentially *)
  Theorem C98_outlier : forall n (o o' : obj) d x y e w la al h k i,
    reachable n o -> o_ext o = XGMCC la al -> 0 <= o_mu o -> 0 <= la -> 0 <= al -> rows_of n x -> run d x o = (o', Ok (y, e, w)) ->
    (k < length x)%nat -> (i < n)%nat -> 0 < h <= Rabs (nth k e 0) ->
    let change := nth i (wrow w (o_w o') (Datatypes.S k)) 0 - nth i (wrow w (o_w o') k) 0 in
    Rabs change <= influence (o_mu o) la al h * Rabs (nth i (nth k x []) 0) /\ 0 <= change * (nth k e 0 * nth i (nth k x []) 0).
  Proof.
    intros n o o' d x y e w la al h k i Hr Ex Hmu Hla Hal Hx E Hk Hi Hh change. apply reachable_wf in Hr.
    destruct (gmcc_step n o o' d x y e w la al k Hr Ex Hx E Hk) as (Hrow & _ & _ & L1 & L2). unfold change.
    rewrite Hrow, nth_vadd by (rewrite vsc_length; congruence). rewrite nth_vsc.
    set (ek := nth k e 0) in *. set (xi := nth i (nth k x []) 0) in *.
    set (g := o_mu o * la * al * exp (- la * Rpowf (Rabs ek) al) * Rpowf (Rabs ek) (al - 1)).
    match goal with |- Rabs (?u + ?v - ?u) <= _ /\ _ => replace (u + v - u) with v by ring end.
    assert (Pg : 0 <= g) by (unfold g; repeat apply Rmult_le_pos; auto; [left; apply exp_pos|apply Rpowf_nonneg]).
    assert (Hg : g <= influence (o_mu o) la al h) by (eapply Rle_trans; [apply gain_le; auto; lra|apply influence_mono; auto]).
    split.
    - rewrite !Rabs_mult, (Rabs_pos_eq g) by exact Pg. apply Rmult_le_compat_r; [apply Rabs_pos|]. pose proof (Rsgn_abs ek) as S1. pose proof (Rabs_pos (Rsgn ek)). nra.
    - replace (g * Rsgn ek * xi * (ek * xi)) with (g * (Rsgn ek * ek) * (xi * xi)) by ring. rewrite sgn_abs.
      apply Rmult_le_pos; [apply Rmult_le_pos; [exact Pg|apply Rabs_pos]|apply Rle_0_sqr].
  Qed.
  (** so samples whose errors stay at or above h move weight i by no more than this, however many there are *)
  Theorem C98_far_away : forall n (o o' : obj) d x y e w la al h X k i,
    reachable n o -> o_ext o = XGMCC la al -> 0 <= o_mu o -> 0 <= la -> 0 <= al -> rows_of n x -> run d x o = (o', Ok (y, e, w)) ->
    (k <= length x)%nat -> (i < n)%nat -> 0 < h ->
    (forall j, (j < k)%nat -> h <= Rabs (nth j e 0) /\ Rabs (nth i (nth j x []) 0) <= X) ->
    Rabs (nth i (wrow w (o_w o') k) 0 - nth i (o_w o) 0) <= INR k * (influence (o_mu o) la al h * X).
  Proof.
    intros n o o' d x y e w la al h X k i Hr Ex Hmu Hla Hal Hx E Hk Hi Hh. pose proof Hr as Hr'. apply reachable_wf in Hr'.
    assert (Hne : x <> []) by (intros ->; destruct d; discriminate).
    destruct (run_start solve n o o' d x y e w Hr' Hx E Hne) as (_ & H0 & _ & _).
    induction k as [|k IH]; intros HJ; [rewrite H0; cbn [INR]; unfold Rminus; rewrite Rplus_opp_r, Rabs_R0; lra|].
    specialize (IH ltac:(lia) ltac:(intros j Hj; apply HJ; lia)). destruct (HJ k ltac:(lia)) as (He & HX).
    destruct (C98_outlier n o o' d x y e w la al h k i Hr Ex Hmu Hla Hal Hx E ltac:(lia) Hi (conj Hh He)) as (S1 & _).
    assert (I0 : 0 <= influence (o_mu o) la al h).
    { unfold influence, Rdiv. apply Rmult_le_pos; [apply Rmult_le_pos; [apply Rmult_le_pos; assumption|left; apply exp_pos]|left; apply Rinv_0_lt_compat; exact Hh]. }
    assert (S2 : influence (o_mu o) la al h * Rabs (nth i (nth k x []) 0) <= influence (o_mu o) la al h * X) by (apply Rmult_le_compat_l; assumption).
    rewrite S_INR. set (a := nth i (wrow w (o_w o') (Datatypes.S k)) 0) in *. set (b := nth i (wrow w (o_w o') k) 0) in *. set (c := nth i (o_w o) 0) in *.
    replace (a - c) with ((a - b) + (b - c)) by ring. eapply Rle_trans; [apply Rabs_triang|]. lra.
  Qed.

  (** ** one weight, input 1, target D, started at 0, alpha = 2: after less than D^2 exp(la D^2 / 8) / (8 mu) samples it has not come half of the way *)
  Theorem C98_stuck : forall (o o' : obj) d x y e w la D,
    reachable 1 o -> o_ext o = XGMCC la 2 -> 0 < o_mu o -> 0 <= la -> 0 < D -> o_w o = [0] ->
    x <> [] -> x = repeat [1] (length x) -> d = repeat D (length x) -> run d x o = (o', Ok (y, e, w)) ->
    INR (length x) <= D ^ 2 * exp (la * D ^ 2 / 8) / (8 * o_mu o) ->
    forall k, (k <= length x)%nat -> 0 <= nth 0 (wrow w (o_w o') k) 0 <= D / 2.
  Proof.
    intros o o' d x y e w la D Hr Ex Hmu Hla HD Hw Hne Hx Hd E HN. pose proof Hr as Hr'. apply reachable_wf in Hr'.
    assert (HX : rows_of 1 x) by (rewrite Hx; apply Forall_forall; intros r Hin; apply repeat_spec in Hin; subst; reflexivity).
    destruct (run_start solve 1 o o' d x y e w Hr' HX E Hne) as (_ & H0 & _ & _).
    set (B := influence (o_mu o) la 2 (D / 2)).
    assert (EB : B = 4 * o_mu o / (D * exp (la * D ^ 2 / 8))).
    { unfold B, influence. rewrite Rpowf_2 by lra. replace (- (la * (D / 2 * (D / 2)) / 2)) with (- (la * D ^ 2 / 8)) by field. rewrite exp_Ropp. pose proof (exp_pos (la * D ^ 2 / 8)). field. split; lra. }
    assert (HB : forall k, (k <= length x)%nat -> INR k * B <= D / 2).
    { intros k Hk. apply Rle_trans with (D ^ 2 * exp (la * D ^ 2 / 8) / (8 * o_mu o) * B).
      - apply Rmult_le_compat_r; [|apply Rle_trans with (INR (length x)); [apply le_INR; exact Hk|exact HN]].
        rewrite EB. pose proof (exp_pos (la * D ^ 2 / 8)). apply Rmult_le_pos; [lra|]. left. apply Rinv_0_lt_compat. apply Rmult_lt_0_compat; lra.
      - right. rewrite EB. pose proof (exp_pos (la * D ^ 2 / 8)). field. repeat split; lra. }
    assert (P : forall k, (k <= length x)%nat -> 0 <= nth 0 (wrow w (o_w o') k) 0 <= INR k * B).
    { induction k as [|k IH]; intros Hk; [rewrite H0, Hw; cbn; lra|]. specialize (IH ltac:(lia)). pose proof (HB k ltac:(lia)) as HBk.
      destruct (gmcc_step 1 o o' d x y e w la 2 k Hr' Ex HX E Hk) as (_ & Hy & He & L1 & L2).
      assert (Xk : nth k x [] = [1]) by (rewrite Hx; rewrite (nth_indep _ [] [1]) by (rewrite repeat_length; lia); apply nth_repeat).
      assert (Dk : nth k d 0 = D) by (rewrite Hd; rewrite (nth_indep _ 0 D) by (rewrite repeat_length; lia); apply nth_repeat).
      assert (Ek : nth k e 0 = D - nth 0 (wrow w (o_w o') k) 0).
      { rewrite He, Hy, Dk, Xk. destruct (wrow w (o_w o') k) as [|v [|? ?]]; cbn [length] in L1; try lia. cbn. ring. }
      destruct (C98_outlier 1 o o' d x y e w la 2 (D / 2) k 0 Hr Ex ltac:(lra) Hla ltac:(lra) HX E Hk ltac:(lia)) as (S1 & S2).
      { rewrite Ek. rewrite Rabs_pos_eq by lra. lra. }
      rewrite Xk in S1, S2. cbn [nth] in S1, S2. rewrite Rabs_R1, Rmult_1_r in S1. rewrite Rmult_1_r in S2. fold B in S1. rewrite Ek in S2.
      set (a := nth 0 (wrow w (o_w o') (Datatypes.S k)) 0) in *. set (b := nth 0 (wrow w (o_w o') k) 0) in *. rewrite S_INR.
      assert (0 <= a - b). { apply Rmult_le_reg_r with (D - b); [lra|]. lra. }
      rewrite Rabs_pos_eq in S1 by assumption. lra. }
    intros k Hk. specialize (P k Hk). specialize (HB k Hk). lra.
  Qed.

  (** ** noise-free endless data: the errors tend to zero and, if the inputs keep exciting all directions, the weights to the system *)
  Theorem C98_identifies : forall n (o : obj) dd xx ws la al B c,
    reachable n o -> o_ext o = XGMCC la al -> (forall k, length (xx k) = n) -> length ws = n ->
    (forall k, dd k = Rdot ws (xx k)) ->
    0 < o_mu o -> 0 < la -> 2 <= al -> (forall k, normsq (xx k) <= B) -> c < 2 ->
    o_mu o * la * al * Rpowf (sqrt (distsq (o_w o) ws * B)) (al - 2) * B <= c ->
    identifies solve n o dd xx ws.
  Proof.
    intros n o dd xx ws la al B c Hr Ex Hx Hws Hd Hmu Hla Hal HB Hc Hs. set (mu := o_mu o) in *. set (D0 := distsq (o_w o) ws) in *.
    assert (HD0 : 0 <= D0) by apply normsq_nonneg.
    assert (HB0 : 0 <= B) by (refine (Rle_trans _ _ _ (normsq_nonneg _) (HB 0%nat))).
    set (M := sqrt (D0 * B)) in *. assert (HM : 0 <= M) by apply sqrt_pos.
    set (L := Rpowf M (al - 2)) in *. assert (HL : 0 <= L) by apply Rpowf_nonneg.
    set (K := mu * la * al) in *. assert (HK : 0 < K) by (unfold K; apply Rmult_lt_0_compat; [apply Rmult_lt_0_compat; lra|lra]).
    assert (Hc0 : 0 <= c) by (refine (Rle_trans _ _ _ _ Hs); repeat apply Rmult_le_pos; lra).
    set (g := fun (e : R) (v : rvec) => K * exp (- la * Rpowf (Rabs e) al) * Rpowf (Rabs e) (al - 1) * Rsgn e).
    assert (EM : forall e s, 0 <= s <= B -> e ^ 2 <= D0 * s -> Rabs e <= M).
    { intros e s Hsb He. unfold M. rewrite <- (sqrt_Rsqr_abs e). apply sqrt_le_1; [apply Rle_0_sqr|apply Rmult_le_pos; assumption|]. unfold Rsqr.
      apply Rle_trans with (D0 * s); [lra|]. apply Rmult_le_compat_l; lra. }
    assert (GE : forall e v, g e v * e = K * exp (- la * Rpowf (Rabs e) al) * Rpowf (Rabs e) al).
    { intros e v. unfold g. set (xp := exp _). rewrite (Rpowf_split (Rabs e) al) by (try apply Rabs_pos; lra). set (Q := Rpowf _ (al - 1)).
      replace (K * xp * Q * Rsgn e * e) with (K * xp * Q * (Rsgn e * e)) by ring. rewrite sgn_abs. ring. }
    assert (GE0 : forall e v, 0 <= g e v * e).
    { intros e v. rewrite GE. apply Rmult_le_pos; [apply Rmult_le_pos; [lra|left; apply exp_pos]|apply Rpowf_nonneg]. }
    assert (X1 : forall P, 0 <= P -> exp (- la * P) <= 1).
    { intros P HP. apply exp_le_1. nra. }
    assert (GQ : forall e v, 0 <= normsq v <= B -> e ^ 2 <= D0 * normsq v -> g e v ^ 2 * normsq v <= c * (g e v * e)).
    { intros e v Hv He. pose proof (EM e _ Hv He) as HE. pose proof (Rabs_pos e) as E0.
      assert (Q1 : Rpowf (Rabs e) (al - 1) <= Rabs e * L).
      { destruct (Req_dec al 2) as [->|Hn2].
        - rewrite Rpowf_1 by exact E0. unfold L. replace (2 - 2) with 0 by ring. assert (Z : Rpowf M 0 = 1); [|rewrite Z; lra].
          unfold Rpowf. destruct (Req_EM_T M 0); [destruct (Req_EM_T 0 0); lra|]. apply Rpower_O. lra.
        - rewrite (Rpowf_split (Rabs e) (al - 1)) by (try exact E0; lra). apply Rmult_le_compat_l; [exact E0|]. replace (al - 1 - 1) with (al - 2) by ring. apply Rpowf_mono; lra. }
      set (Q := Rpowf (Rabs e) (al - 1)) in *. assert (HQ0 : 0 <= Q) by apply Rpowf_nonneg.
      set (xp := exp (- la * Rpowf (Rabs e) al)). assert (Hxp : 0 < xp <= 1) by (split; [apply exp_pos|apply X1, Rpowf_nonneg]).
      assert (Eg : g e v * e = K * xp * Q * Rabs e) by (unfold g; fold Q xp; replace (K * xp * Q * Rsgn e * e) with (K * xp * Q * (Rsgn e * e)) by ring; rewrite sgn_abs; ring).
      rewrite Eg. unfold g. fold Q xp.
      replace ((K * xp * Q * Rsgn e) ^ 2 * normsq v) with ((K * xp * Q) * ((K * xp * Q * normsq v) * (Rsgn e * Rsgn e))) by ring.
      replace (c * (K * xp * Q * Rabs e)) with ((K * xp * Q) * (c * Rabs e)) by ring. apply Rmult_le_compat_l; [repeat apply Rmult_le_pos; lra|].
      apply Rle_trans with (K * xp * Q * normsq v).
      { rewrite <- (Rmult_1_r (K * xp * Q * normsq v)) at 2. apply Rmult_le_compat_l; [repeat apply Rmult_le_pos; lra|apply sgn_sq]. }
      apply Rle_trans with (K * 1 * (Rabs e * L) * B).
      { apply Rmult_le_compat; [repeat apply Rmult_le_pos; lra|lra| |lra]. apply Rmult_le_compat; [apply Rmult_le_pos; lra|exact HQ0| |exact Q1]. apply Rmult_le_compat_l; lra. }
      replace (K * 1 * (Rabs e * L) * B) with (K * L * B * Rabs e) by ring. apply Rmult_le_compat_r; [exact E0|exact Hs]. }
    assert (LOW : forall e v, 0 <= normsq v <= B -> e ^ 2 <= D0 * normsq v -> (2 - c) * (g e v * e) <= g e v * (2 * e - g e v * normsq v)).
    { intros e v Hv He. pose proof (GQ e v Hv He). replace (g e v * (2 * e - g e v * normsq v)) with (2 * (g e v * e) - g e v ^ 2 * normsq v) by ring. lra. }
    apply (identify solve n o dd xx ws g B); auto.
    - intros e v. rewrite Ex. reflexivity.
    - intros e v Hv _ _ He. fold D0 in He. refine (Rle_trans _ _ _ _ (LOW e v (conj (normsq_nonneg v) Hv) He)). apply Rmult_le_pos; [lra|apply GE0].
    - intros u Hu Hq. fold D0 in Hu.
      assert (H0 : Un_cv (fun k => g (u k) (xx k) * u k) 0).
      { refine (cv_squeeze _ _ _ (cv_scal _ (/ (2 - c)) Hq)). intros k. split; [apply GE0|]. apply Rmult_le_reg_l with (2 - c); [lra|].
        rewrite <- (Rmult_assoc (2 - c) (/ _)), Rinv_r, Rmult_1_l by lra. apply LOW; [split; [apply normsq_nonneg|apply HB]|apply Hu]. }
      split.
      + set (x0 := exp (- la * Rpowf M al)). assert (Px0 : 0 < x0) by apply exp_pos. intros eps He.
        assert (Hp : 0 < K * x0 * Rpowf eps al) by (apply Rmult_lt_0_compat; [nra|apply Rpowf_gt0; exact He]).
        destruct (H0 _ Hp) as (N & HN). exists N. intros k Hk. specialize (HN k Hk). unfold R_dist in *. rewrite Rminus_0_r in *.
        rewrite Rabs_pos_eq in HN by apply GE0. rewrite GE in HN. apply (Rpowf_lt_inv _ _ al); [apply Rabs_pos|exact He|lra|].
        pose proof (EM (u k) _ (conj (normsq_nonneg _) (HB k)) (Hu k)) as HE. pose proof (Rpowf_mono (Rabs (u k)) M al (conj (Rabs_pos _) HE) ltac:(lra)) as HP.
        set (P := Rpowf (Rabs (u k)) al) in *. assert (HP0 : 0 <= P) by apply Rpowf_nonneg.
        assert (Hx0 : x0 <= exp (- la * P)).
        { assert (T : - la * Rpowf M al <= - la * P) by nra. unfold x0. destruct (Rle_lt_or_eq_dec _ _ T) as [T1| ->]; [left; apply exp_increasing; exact T1|lra]. }
        apply Rmult_lt_reg_l with (K * x0); [nra|]. eapply Rle_lt_trans; [|exact HN]. apply Rmult_le_compat_r; [exact HP0|]. apply Rmult_le_compat_l; lra.
      + apply (cv_squeeze _ (fun k => c * (g (u k) (xx k) * u k))); [|apply cv_scal, H0].
        intros k. split; [apply Rmult_le_pos; [apply pow2_ge_0|apply normsq_nonneg]|]. apply GQ; [split; [apply normsq_nonneg|apply HB]|apply Hu].
  Qed.

  (** with the default settings (mu = 0.01, lambd = 0.03, alpha = 2): 1000 samples with target 100 *)
  Example C98_hypotheses :
    (exists (o o' : obj) d x y e w, reachable 1 o /\ o_ext o = XGMCC (3 / 100) 2 /\ o_mu o = 1 / 100 /\ o_w o = [0] /\ x = repeat [1] 1000 /\ d = repeat 100 1000 /\
       run d x o = (o', Ok (y, e, w)) /\ INR 1000 <= 100 ^ 2 * exp (3 / 100 * 100 ^ 2 / 8) / (8 * (1 / 100)) /\
       forall k, (k <= 1000)%nat -> 0 <= nth 0 (wrow w (o_w o') k) 0 <= 50) /\
    (exists (o : obj), reachable 2 o /\ o_ext o = XGMCC (1 / 10) 2 /\ 0 < o_mu o /\ exciting 2 2 1 alternating /\ (forall k, normsq (alternating k) <= 1) /\ distsq (o_w o) [3; 4] = 25 /\
       o_mu o * (1 / 10) * 2 * Rpowf (sqrt (distsq (o_w o) [3; 4] * 1)) (2 - 2) * 1 <= 1).
  Proof.
    split.
    - set (kw := mkKw (Some 1%Z) (Some (1 / 100)) (Some (WStr "zeros")) None None None (Some (3 / 100)) (Some 2) None None None false).
      set (o := mkObj [0] 1 (1 / 100) None (XGMCC (3 / 100) 2) : obj).
      assert (Hr : reachable 1 o) by (apply (reach_new 1 rngR KGMCC kw); [apply rngR_ok|split; intros ? Hs; discriminate Hs|reflexivity|reflexivity]).
      set (x := repeat [1] 1000). set (d := repeat 100 1000).
      assert (Hx : rows_of 1 x) by (apply Forall_forall; intros r Hin; apply repeat_spec in Hin; subst; reflexivity).
      assert (LX : length x = 1000%nat) by apply repeat_length. assert (LD : length d = 1000%nat) by apply repeat_length.
      assert (EX : x = repeat [1] (length x)) by (rewrite LX; reflexivity). assert (ED : d = repeat 100 (length x)) by (rewrite LX; reflexivity).
      assert (Hne : x <> []) by (intros Z; rewrite Z in LX; discriminate).
      destruct (run_exists solve 1 o d x Hr Hx ltac:(congruence) Hne) as (o' & y & e & w & E); [intros ex H; exact H|].
      exists o, o', d, x, y, e, w. split; [exact Hr|]. split; [reflexivity|]. split; [reflexivity|]. split; [reflexivity|]. split; [reflexivity|]. split; [reflexivity|]. split; [exact E|].
      clearbody x d.
      assert (HN : INR 1000 <= 100 ^ 2 * exp (3 / 100 * 100 ^ 2 / 8) / (8 * (1 / 100))).
      { assert (X : 1 <= exp (3 / 100 * 100 ^ 2 / 8)) by (rewrite <- exp_0; left; apply exp_increasing; lra). rewrite INR_IZR_INZ. change (Z.of_nat 1000) with 1000%Z. lra. }
      split; [exact HN|]. intros k Hk. replace 50 with (100 / 2) by lra.
      rewrite <- LX in Hk, HN.
      apply (C98_stuck o o' d x y e w (3 / 100) 100 Hr eq_refl); [cbn [o_mu o]; lra|lra|lra|reflexivity|exact Hne|exact EX|exact ED|exact E|exact HN|exact Hk].
    - exists (fresh2 (1 / 2) (XGMCC (1 / 10) 2)). split; [apply (fresh2_reachable solve (1 / 2) None (Some (1 / 10)) (Some 2) KGMCC); reflexivity|].
      split; [reflexivity|]. split; [cbn; lra|]. split; [apply alternating_exciting|].
      split; [intros k; unfold alternating; destruct (Nat.even k); unfold normsq; cbn; lra|]. split; [unfold distsq, normsq; cbn; ring|].
      assert (Z : forall m, Rpowf m (2 - 2) = 1).
      { intros m. replace (2 - 2) with 0 by ring. unfold Rpowf. destruct (Req_EM_T m 0); [destruct (Req_EM_T 0 0); lra|]. unfold Rpower. rewrite Rmult_0_l. apply exp_0. }
      rewrite Z. cbn. lra.
  Qed.
End S.
