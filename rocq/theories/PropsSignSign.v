(** C97: what sign-sign filters achieve and what they do not (exact real arithmetic): with one weight, or inputs of constant
    magnitude, they settle to within their quantum; in general they can diverge, for every step size, on noise-free data that
    excites all directions. *)
From Coq Require Import Reals Lra Psatz.
From Verif Require Import Py Num Numpy Filters Registry Spec StructProofs RunProofs Reach RVec RFilter PropsStability PropsNoise PropsConverge.
Open Scope R_scope.

(** ** Specification *)
(** by how much one sample with input x moves a weight *)
Definition quantum (c : ext R) (mu : R) (x : rvec) : R :=
  match c with XSSLMS => mu | XNSSLMS eps => mu / (eps + normsq x) | _ => 0 end.
Definition sign_sign (c : ext R) : Prop := c = XSSLMS \/ exists eps, 0 <= eps /\ c = XNSSLMS eps.
(** every entry of the input is +c or -c *)
Definition modulus (c : R) (x : rvec) : Prop := Forall (fun a => Rabs a = c) x.
(** the three inputs (3,-1,-1), (-1,3,-1), (-1,-1,3), over and over *)
Definition bad_row (k : nat) : rvec := match Nat.modulo k 3 with 0%nat => [3; -1; -1] | 1%nat => [-1; 3; -1] | _ => [-1; -1; 3] end.

Lemma Rsgn_pos a : 0 < a -> Rsgn a = 1.
Proof. intros H. unfold Rsgn. destruct (Rlt_dec a 0); [lra|]. destruct (Rlt_dec 0 a); [reflexivity|lra]. Qed.
Lemma Rsgn_neg a : a < 0 -> Rsgn a = -1.
Proof. intros H. unfold Rsgn. destruct (Rlt_dec a 0); [reflexivity|lra]. Qed.
Lemma Rsgn_0 : Rsgn 0 = 0.
Proof. unfold Rsgn. destruct (Rlt_dec 0 0); [lra|]. destruct (Rlt_dec 0 0); [lra|reflexivity]. Qed.
Lemma sgn_abs e : Rsgn e * e = Rabs e.
Proof.
  destruct (Rtotal_order e 0) as [H|[->|H]]; [rewrite Rsgn_neg, Rabs_left by lra; ring|rewrite Rsgn_0, Rabs_R0; ring|rewrite Rsgn_pos, Rabs_pos_eq by lra; ring].
Qed.
Lemma sgn_sq e : Rsgn e * Rsgn e <= 1.
Proof. destruct (Rtotal_order e 0) as [H|[->|H]]; [rewrite Rsgn_neg by lra|rewrite Rsgn_0|rewrite Rsgn_pos by lra]; lra. Qed.
Lemma modulus_sgn c q x : 0 < c -> modulus c x -> map (fun a => q * Rsgn a) x = vsc (q / c) x.
Proof.
  intros Hc. induction 1 as [|a x Ha _ IH]; [reflexivity|]. unfold vsc in *. cbn [map]. rewrite IH. f_equal.
  rewrite <- (abs_sgn a) at 2. rewrite Ha. field. lra.
Qed.
Lemma modulus_norm c x : modulus c x -> normsq x = INR (length x) * (c * c).
Proof.
  induction 1 as [|a x Ha _ IH]; [unfold normsq; cbn; ring|]. cbn [length]. rewrite S_INR. unfold normsq in *. cbn [Rdot]. rewrite IH.
  assert (a * a = c * c) by (rewrite <- Ha; rewrite <- Rabs_mult, Rabs_pos_eq; [reflexivity|apply Rle_0_sqr]). lra.
Qed.
Lemma quantum_textbook c mu e x : sign_sign c -> textbook c mu e x = Some (map (fun a => quantum c mu x * Rsgn a * Rsgn e) x).
Proof. intros [->|(eps & _ & ->)]; reflexivity. Qed.

Section S.
  Variable solve : list rvec -> list rvec -> option (list rvec).
  #[local] Hint Extern 0 (Num R) => exact (RNum solve) : typeclass_instances.
  Notation obj := (obj R).

  Lemma ss_step n (o o' : obj) d x y e w k : wf n o -> sign_sign (o_ext o) -> rowsl n x -> run d x o = (o', Ok (y, e, w)) -> (k < length x)%nat ->
    wrow w (o_w o') (S k) = vadd (wrow w (o_w o') k) (map (fun a => quantum (o_ext o) (o_mu o) (nth k x []) * Rsgn a * Rsgn (nth k e 0)) (nth k x [])) /\
    nth k y 0 = Rdot (wrow w (o_w o') k) (nth k x []) /\ nth k e 0 = nth k d 0 - nth k y 0 /\
    length (wrow w (o_w o') k) = n /\ length (nth k x []) = n.
  Proof.
    intros Hr Hc Hx E Hk. assert (Ht : forall e v, textbook (o_ext o) (o_mu o) e v <> None) by (intros; rewrite quantum_textbook by exact Hc; discriminate).
    destruct (run_textbook solve n o o' d x y e w k Hr Hx Ht E Hk) as (dw & Htb & Hrow & Hy & He & Hl1 & Hl2).
    rewrite quantum_textbook in Htb by exact Hc. apply (f_equal (fun r => match r with Some v => v | None => [] end)) in Htb. cbv beta iota in Htb. subst dw. auto.
  Qed.
  Lemma run_start n (o o' : obj) d x y e w : wf n o -> rowsl n x -> run d x o = (o', Ok (y, e, w)) -> x <> [] ->
    length w = length x /\ wrow w (o_w o') 0 = o_w o /\ wrow w (o_w o') (length x) = o_w o' /\ length d = length x.
  Proof.
    intros Hr Hx E Hne. assert (Hl : length d = length x).
    { destruct (Nat.eq_dec (length d) (length x)) as [|Hc]; auto. rewrite run_bad_length in E by assumption; discriminate. }
    destruct (run_eq n o d x Hr Hx Hl Hne) as (h & E' & _).
    rewrite E in E'. destruct (snd (adapt_all d x o)); [|discriminate]. cbn [rmap] in E'. injection E' as _ _ _ ->.
    assert (L : length (wtrace d x o) = length x) by (apply wtrace_length; auto). split; [exact L|]. split; [|split; [|exact Hl]].
    - unfold wrow; destruct d, x; [congruence|discriminate|discriminate|reflexivity].
    - unfold wrow. rewrite app_nth2, L, Nat.sub_diag by lia. reflexivity.
  Qed.

  (** ** inputs of constant magnitude: the mean absolute error is bounded by that of any competitor, plus n c q / 2, plus a term that dies out *)
  Theorem C97_constant_modulus : forall n (o o' : obj) d x y e w ws c q,
    reachable n o -> sign_sign (o_ext o) -> rows_of n x -> length ws = n -> run d x o = (o', Ok (y, e, w)) ->
    0 < c -> Forall (modulus c) x -> 0 < q -> (forall v, length v = n -> modulus c v -> quantum (o_ext o) (o_mu o) v = q) ->
    total (length x) (fun k => Rabs (nth k e 0)) <=
      total (length x) (fun k => Rabs (noise ws x d k)) + INR (length x) * (INR n * c * q / 2) + c * distsq (o_w o) ws / (2 * q).
  Proof.
    intros n o o' d x y e w ws c q Hr Hc Hx Hws E Hc0 Hm Hq HQ. apply reachable_wf in Hr.
    assert (Hs : forall k, (k < length x)%nat -> distsq (wrow w (o_w o') (S k)) ws <= distsq (wrow w (o_w o') k) ws +
      2 * q / c * ((Rabs (noise ws x d k) + INR n * c * q / 2) + - 1 * Rabs (nth k e 0))).
    { intros k Hk. destruct (ss_step n o o' d x y e w k Hr Hc Hx E Hk) as (Hrow & Hy & He & L1 & L2).
      assert (Hmk : modulus c (nth k x [])) by (rewrite Forall_forall in Hm; apply Hm, nth_In; exact Hk).
      assert (Em : map (fun a => quantum (o_ext o) (o_mu o) (nth k x []) * Rsgn a * Rsgn (nth k e 0)) (nth k x []) = vsc (q * Rsgn (nth k e 0) / c) (nth k x [])).
      { rewrite (HQ _ L2 Hmk). rewrite <- (modulus_sgn c (q * Rsgn (nth k e 0)) _ Hc0 Hmk). apply map_ext. intros a. ring. }
      rewrite Hrow, Em, distsq_move by congruence. rewrite <- Hy. rewrite (modulus_norm c _ Hmk), L2.
      unfold noise. set (ek := nth k e 0) in *. set (a := Rdot ws (nth k x [])) in *. set (yk := nth k y 0) in *. set (dk := nth k d 0) in *.
      assert (S1 : Rsgn ek * (yk - a) <= Rabs (dk - a) - Rabs ek).
      { replace (yk - a) with ((dk - a) - ek) by lra. rewrite Rmult_minus_distr_l, sgn_abs.
        assert (Rsgn ek * (dk - a) <= Rabs (dk - a)); [|lra]. apply Rle_trans with (Rabs (Rsgn ek * (dk - a))); [apply Rle_abs|].
        rewrite Rabs_mult. rewrite <- (Rmult_1_l (Rabs (dk - a))) at 2. apply Rmult_le_compat_r; [apply Rabs_pos|]. apply Rsgn_abs. }
      assert (S2 : q * Rsgn ek / c * (q * Rsgn ek / c) * (INR n * (c * c)) <= q * q * INR n).
      { replace (q * Rsgn ek / c * (q * Rsgn ek / c) * (INR n * (c * c))) with (q * q * INR n * (Rsgn ek * Rsgn ek)) by (field; lra).
        rewrite <- (Rmult_1_r (q * q * INR n)) at 2. apply Rmult_le_compat_l; [|apply sgn_sq]. apply Rmult_le_pos; [nra|apply pos_INR]. }
      assert (S3 : 2 * (q * Rsgn ek / c) * (yk - a) <= 2 * q / c * (Rabs (dk - a) - Rabs ek)).
      { replace (2 * (q * Rsgn ek / c) * (yk - a)) with (2 * q / c * (Rsgn ek * (yk - a))) by (field; lra). apply Rmult_le_compat_l; [|exact S1].
        unfold Rdiv. apply Rmult_le_pos; [lra|left; apply Rinv_0_lt_compat; lra]. }
      replace (2 * q / c * (Rabs (dk - a) + INR n * c * q / 2 + -1 * Rabs ek)) with (2 * q / c * (Rabs (dk - a) - Rabs ek) + q * q * INR n) by (field; lra). lra. }
    pose proof (run_telescope solve n o o' d x y e w (fun v => distsq v ws) _ Hr Hx E Hs) as H. cbv beta in H.
    rewrite <- total_scal, total_minus in H.
    assert (T : forall N, total N (fun k => Rabs (noise ws x d k) + INR n * c * q / 2) = total N (fun k => Rabs (noise ws x d k)) + INR N * (INR n * c * q / 2)).
    { induction N as [|N IH]; [unfold total; cbn; ring|]. rewrite !total_S, IH, S_INR. ring. }
    rewrite T in H. pose proof (normsq_nonneg (vsub (o_w o') ws)) as P. fold (distsq (o_w o') ws) in P.
    apply Rmult_le_reg_l with (2 * q / c); [unfold Rdiv; apply Rmult_lt_0_compat; [lra|apply Rinv_0_lt_compat; lra]|].
    set (A := total (length x) (fun k => Rabs (nth k e 0))) in *. set (B := total (length x) (fun k => Rabs (noise ws x d k))) in *.
    replace (2 * q / c * (B + INR (length x) * (INR n * c * q / 2) + c * distsq (o_w o) ws / (2 * q)))
      with (2 * q / c * (B + INR (length x) * (INR n * c * q / 2)) + distsq (o_w o) ws) by (field; lra).
    rewrite Rmult_minus_distr_l in H. lra.
  Qed.

  (** ** one weight, noise-free data: the distance shrinks by a quantum per sample until it is at most a quantum, and then stays there *)
  Theorem C97_one_weight : forall (o o' : obj) d x y e w ws q1 q2 k,
    reachable 1 o -> sign_sign (o_ext o) -> rows_of 1 x -> run d x o = (o', Ok (y, e, w)) ->
    (forall j, (j < length x)%nat -> nth 0 (nth j x []) 0 <> 0 /\ nth j d 0 = ws * nth 0 (nth j x []) 0) ->
    (forall j, (j < length x)%nat -> 0 < q1 /\ q1 <= quantum (o_ext o) (o_mu o) (nth j x []) <= q2) -> (k <= length x)%nat ->
    Rabs (ws - nth 0 (wrow w (o_w o') k) 0) <= Rmax (Rabs (ws - nth 0 (o_w o) 0) - INR k * q1) q2.
  Proof.
    intros o o' d x y e w ws q1 q2 k Hr Hc Hx E Hd HQ. apply reachable_wf in Hr. 
    assert (Hne : x <> []). { intros ->. destruct d; discriminate. }
    destruct (run_start 1 o o' d x y e w Hr Hx E Hne) as (_ & H0 & _ & _).
    induction k as [|k IH]; intros Hk; [rewrite H0; cbn [INR]; eapply Rle_trans; [|apply Rmax_l]; lra|]. specialize (IH ltac:(lia)).
    destruct (ss_step 1 o o' d x y e w k Hr Hc Hx E Hk) as (Hrow & Hy & He & L1 & L2). destruct (Hd k Hk) as (Hx0 & Hdk). specialize (HQ k Hk).
    set (q := quantum (o_ext o) (o_mu o) (nth k x [])) in *. rewrite Hrow, nth_vadd by (rewrite map_length; congruence). rewrite nth_map_R by lia.
    destruct (nth k x []) as [|a [|b r]]; cbn [length] in L2; try lia. cbn [nth] in *.
    destruct (wrow w (o_w o') k) as [|v [|b r]]; cbn [length] in L1; try lia. cbn [nth] in *. cbn [Rdot] in Hy.
    assert (Ee : nth k e 0 = (ws - v) * a) by (rewrite He, Hy, Hdk; ring).
    assert (ES : Rsgn a * Rsgn (nth k e 0) = Rsgn (ws - v)).
    { rewrite Ee. destruct (Rtotal_order a 0) as [Ha|[Ha|Ha]]; [|congruence|];
        (destruct (Rtotal_order (ws - v) 0) as [Hv|[Hv|Hv]]; [|rewrite Hv, Rmult_0_l, !Rsgn_0; ring|]).
      - rewrite (Rsgn_neg a), (Rsgn_neg (ws - v)), Rsgn_pos by nra. ring.
      - rewrite (Rsgn_neg a), (Rsgn_pos (ws - v)), Rsgn_neg by nra. ring.
      - rewrite (Rsgn_pos a), (Rsgn_neg (ws - v)), Rsgn_neg by nra. ring.
      - rewrite (Rsgn_pos a), (Rsgn_pos (ws - v)), Rsgn_pos by nra. ring. }
    rewrite Rmult_assoc, ES. rewrite S_INR. set (D := Rabs (ws - nth 0 (o_w o) 0)) in *.
    destruct (Rle_lt_dec q (Rabs (ws - v))) as [Hq|Hq].
    - assert (G : Rabs (ws - (v + q * Rsgn (ws - v))) = Rabs (ws - v) - q).
      { destruct (Rtotal_order (ws - v) 0) as [Hv|[Hv|Hv]].
        - rewrite Rsgn_neg by lra. rewrite (Rabs_left (ws - v)) in * by lra. rewrite Rabs_left1 by lra. ring.
        - rewrite Hv, Rabs_R0 in Hq. lra.
        - rewrite Rsgn_pos by lra. rewrite (Rabs_pos_eq (ws - v)) in * by lra. rewrite Rabs_pos_eq by lra. ring. }
      rewrite G. unfold Rmax in *. destruct (Rle_dec (D - INR k * q1) q2), (Rle_dec (D - (INR k + 1) * q1) q2); lra.
    - eapply Rle_trans; [|apply Rmax_r]. destruct (Rtotal_order (ws - v) 0) as [Hv|[Hv|Hv]].
      + rewrite Rsgn_neg by lra. rewrite (Rabs_left (ws - v)) in * by lra. rewrite Rabs_pos_eq by lra. lra.
      + rewrite Hv, Rsgn_0. replace (ws - (v + q * 0)) with (ws - v) by ring. rewrite Hv, Rabs_R0. lra.
      + rewrite Rsgn_pos by lra. rewrite (Rabs_pos_eq (ws - v)) in * by lra. rewrite Rabs_left1 by lra. lra.
  Qed.

  (** ** divergence *)
  Lemma bad_len k : length (bad_row k) = 3%nat.
  Proof. unfold bad_row. destruct (k mod 3)%nat as [|[|?]]; reflexivity. Qed.
  Lemma bad_at j i : bad_row (3 * j + i) = bad_row i.
  Proof. unfold bad_row. replace (3 * j + i)%nat with (i + j * 3)%nat by lia. rewrite Nat.mod_add by lia. reflexivity. Qed.
  Lemma bad_norm k : normsq (bad_row k) = 11.
  Proof. unfold bad_row, normsq. destruct (k mod 3)%nat as [|[|?]]; cbn; ring. Qed.

  (** the data excite all directions *)
  Theorem C97_data_are_exciting : exciting 3 3 1 bad_row.
  Proof.
    split; [lra|]. intros k v Hv. destruct v as [|a [|b [|c [|? ?]]]]; try discriminate. unfold total. cbn [seq map Rsum].
    pose proof (Nat.div_mod k 3 ltac:(lia)) as Ek. pose proof (Nat.mod_upper_bound k 3 ltac:(lia)) as Hk. set (m := (k mod 3)%nat) in *.
    assert (B : forall i, bad_row (k + i) = bad_row (m + i)) by (intros i; rewrite Ek, <- Nat.add_assoc; apply bad_at). rewrite !B.
    pose proof (Rle_0_sqr (a - b)) as S1. pose proof (Rle_0_sqr (b - c)) as S2. pose proof (Rle_0_sqr (a - c)) as S3. unfold Rsqr in *.
    destruct m as [|[|[|m]]]; [| | |lia]; unfold bad_row, normsq; cbn; lra.
  Qed.

  (** on them, with noise-free targets, the weight error of a sign-sign filter started at ws - K (1,1,1) grows by a quantum every three
      samples, in every weight, for ever *)
  Theorem C97_diverges : forall (o o' : obj) y e w a b c K q N,
    reachable 3 o -> sign_sign (o_ext o) -> q = quantum (o_ext o) (o_mu o) [3; -1; -1] -> 0 < q -> 0 < K ->
    o_w o = [a - K; b - K; c - K] -> (0 < N)%nat ->
    let xs := first (3 * N) bad_row in let ds := first (3 * N) (fun k => Rdot [a; b; c] (bad_row k)) in
    run ds xs o = (o', Ok (y, e, w)) ->
    o_w o' = [a - (K + INR N * q); b - (K + INR N * q); c - (K + INR N * q)] /\
    forall j, (j < N)%nat -> nth (3 * j) e 0 = K + INR j * q.
  Proof.
    intros o o' y e w a b c K q N Hr Hc Eq Hq HK Ew HN xs ds E. apply reachable_wf in Hr.
    assert (Lx : length xs = (3 * N)%nat) by apply first_length.
    assert (Hx : rowsl 3 xs) by (unfold xs, first; apply Forall_forall; intros r Hin; apply in_map_iff in Hin as (k & <- & _); apply bad_len).
    assert (Hne : xs <> []) by (intros Z; rewrite Z in Lx; cbn in Lx; lia).
    destruct (run_start 3 o o' ds xs y e w Hr Hx E Hne) as (_ & H0 & HL & _).
    assert (Q : forall k, quantum (o_ext o) (o_mu o) (bad_row k) = q).
    { intros k. rewrite Eq. destruct Hc as [->|(eps & _ & ->)]; [reflexivity|]. cbn [quantum]. rewrite bad_norm. change [3; -1; -1] with (bad_row 0). rewrite bad_norm. reflexivity. }
    assert (ST : forall k u1 u2 u3, (k < 3 * N)%nat -> wrow w (o_w o') k = [a - u1; b - u2; c - u3] ->
      let r := bad_row k in let ek := Rdot [u1; u2; u3] r in nth k e 0 = ek /\
      wrow w (o_w o') (S k) = vadd [a - u1; b - u2; c - u3] (map (fun z => q * Rsgn z * Rsgn ek) r)).
    { intros k u1 u2 u3 Hk Hw r ek. destruct (ss_step 3 o o' ds xs y e w k Hr Hc Hx E ltac:(lia)) as (Hrow & Hy & He & _).
      unfold xs in Hrow, Hy. rewrite first_nth in Hrow, Hy by exact Hk. unfold ds in He. rewrite first_nth in He by exact Hk. rewrite Hw in Hy, Hrow.
      assert (Ee : nth k e 0 = ek). { rewrite He, Hy. unfold ek, r. pose proof (bad_len k) as BL. destruct (bad_row k) as [|z1 [|z2 [|z3 [|? ?]]]]; try discriminate. cbn. ring. }
      split; [exact Ee|]. rewrite Hrow, Q, Ee. reflexivity. }
    assert (EQ3 : forall u1 u2 u3 v1 v2 v3 : R, u1 = v1 -> u2 = v2 -> u3 = v3 -> [u1; u2; u3] = [v1; v2; v3]) by (intros; subst; reflexivity).
    assert (CY : forall j, (j <= N)%nat -> let p := K + INR j * q in
      wrow w (o_w o') (3 * j) = [a - p; b - p; c - p] /\ ((j < N)%nat -> nth (3 * j) e 0 = p)).
    { assert (STEP : forall j, (j < N)%nat -> let p := K + INR j * q in wrow w (o_w o') (3 * j) = [a - p; b - p; c - p] ->
        nth (3 * j) e 0 = p /\ wrow w (o_w o') (3 * S j) = [a - (p + q); b - (p + q); c - (p + q)]).
      { intros j Hj p Hp. assert (Pp : 0 < p) by (unfold p; pose proof (pos_INR j); nra).
        assert (R3 : Rsgn 3 = 1) by (apply Rsgn_pos; lra). assert (R1 : Rsgn (-1) = -1) by (apply Rsgn_neg; lra).
        destruct (ST (3 * j)%nat p p p ltac:(lia) Hp) as (E0 & W1). replace (bad_row (3 * j)) with (bad_row 0) in E0 by (rewrite <- (Nat.add_0_r (3 * j)); symmetry; apply bad_at). change (bad_row 0) with [3; -1; -1] in E0. cbn [Rdot] in E0.
        replace (p * 3 + (p * -1 + (p * -1 + 0))) with p in E0 by ring.
        replace (bad_row (3 * j)) with (bad_row 0) in W1 by (rewrite <- (Nat.add_0_r (3 * j)); symmetry; apply bad_at). change (bad_row 0) with [3; -1; -1] in W1. cbn [Rdot map] in W1.
        rewrite R3, R1, (Rsgn_pos (p * 3 + _)) in W1 by lra.
        assert (W1' : wrow w (o_w o') (S (3 * j)) = [a - (p - q); b - (p + q); c - (p + q)]) by (rewrite W1; cbn; apply EQ3; ring). clear W1.
        destruct (ST (S (3 * j)) _ _ _ ltac:(lia) W1') as (_ & W2). replace (bad_row (S (3 * j))) with (bad_row 1) in W2 by (rewrite <- (bad_at j 1); f_equal; lia).
        change (bad_row 1) with [-1; 3; -1] in W2. cbn [Rdot map] in W2. rewrite R3, R1, (Rsgn_pos (_ * -1 + _)) in W2 by lra.
        assert (W2' : wrow w (o_w o') (S (S (3 * j))) = [a - p; b - p; c - (p + q + q)]) by (rewrite W2; cbn; apply EQ3; ring). clear W2.
        destruct (ST (S (S (3 * j))) _ _ _ ltac:(lia) W2') as (_ & W3). replace (bad_row (S (S (3 * j)))) with (bad_row 2) in W3 by (rewrite <- (bad_at j 2); f_equal; lia).
        change (bad_row 2) with [-1; -1; 3] in W3. cbn [Rdot map] in W3. rewrite R3, R1, (Rsgn_pos (_ * -1 + _)) in W3 by lra.
        split; [exact E0|]. replace (3 * S j)%nat with (S (S (S (3 * j)))) by lia. rewrite W3. cbn. apply EQ3; ring. }
      induction j as [|j IH]; intros Hj p.
      - assert (W0 : wrow w (o_w o') (3 * 0) = [a - p; b - p; c - p]) by (change (3 * 0)%nat with 0%nat; rewrite H0, Ew; unfold p; cbn [INR]; apply EQ3; ring).
        split; [exact W0|]. intros H. apply (STEP 0%nat H). exact W0.
      - destruct (IH ltac:(lia)) as (I1 & _). destruct (STEP j ltac:(lia) I1) as (_ & W).
        assert (Wp : wrow w (o_w o') (3 * S j) = [a - p; b - p; c - p]) by (rewrite W; unfold p; rewrite S_INR; apply EQ3; ring).
        split; [exact Wp|]. intros H. apply (STEP (S j) H). exact Wp. }
    split; [|intros j Hj; apply (CY j ltac:(lia)); exact Hj].
    destruct (CY N ltac:(lia)) as (W & _). rewrite <- HL, Lx. exact W.
  Qed.

  (** whatever the step size: a new filter with zero weights, a system, and a record of noise-free data on which it ends up as far away as you like *)
  Definition kw3 (mu : R) (eps : option R) : kwargs R := mkKw (Some 3%Z) (Some mu) (Some (WStr "zeros")) eps None None None None None None None false.
  Definition fresh3 (mu : R) (c : ext R) : obj := mkObj [0; 0; 0] 3 mu None c.
  Lemma fresh3_reachable mu eps k c : new_filter rngR k (kw3 mu eps) = Ok (fresh3 mu c) -> reachable 3 (fresh3 mu c).
  Proof. intros H. apply (reach_new 3 rngR k (kw3 mu eps)); [apply rngR_ok|split; intros ? Hs; discriminate Hs|reflexivity|exact H]. Qed.
  Theorem C97_every_step_size : forall mu B kd eps c, 0 < mu -> (kd, eps, c) = (KSSLMS, None, XSSLMS) \/ (exists ep, 0 <= ep /\ (kd, eps, c) = (KNSSLMS, Some ep, XNSSLMS ep)) ->
    exists o' N y e w, new_filter rngR kd (kw3 mu eps) = Ok (fresh3 mu c) /\
      run (first N (fun k => Rdot [1; 1; 1] (bad_row k))) (first N bad_row) (fresh3 mu c) = (o', Ok (y, e, w)) /\
      distsq (o_w (fresh3 mu c)) [1; 1; 1] = 3 /\ B < distsq (o_w o') [1; 1; 1].
  Proof.
    intros mu B kd eps c Hmu Hk.
    assert (HN : new_filter rngR kd (kw3 mu eps) = Ok (fresh3 mu c)) by (destruct Hk as [E|(ep & _ & E)]; injection E as -> -> ->; reflexivity).
    assert (Hs : sign_sign c) by (destruct Hk as [E|(ep & Hep & E)]; injection E as _ _ ->; [left; reflexivity|right; exists ep; auto]).
    pose proof (fresh3_reachable mu eps kd c HN) as Hr. set (q := quantum c mu [3; -1; -1]).
    assert (Hq : 0 < q).
    { unfold q. destruct Hs as [->|(ep & Hep & ->)]; cbn [quantum]; [exact Hmu|]. change [3; -1; -1] with (bad_row 0). rewrite bad_norm.
      apply Rmult_lt_0_compat; [exact Hmu|apply Rinv_0_lt_compat; lra]. }
    assert (UB : exists N0, Rmax 0 B / q < INR N0).
    { destruct (archimed (Rmax 0 B / q)) as (A & _). exists (Z.to_nat (up (Rmax 0 B / q))). apply Rlt_le_trans with (IZR (up (Rmax 0 B / q))); [lra|].
      rewrite INR_IZR_INZ. apply IZR_le. lia. }
    destruct UB as (N0 & HN0). set (N := Datatypes.S N0).
    assert (Hx : rows_of 3 (first (3 * N) bad_row)) by (unfold first; apply Forall_forall; intros r Hin; apply in_map_iff in Hin as (k & <- & _); apply bad_len).
    destruct (run_exists solve 3 (fresh3 mu c) (first (3 * N) (fun k => Rdot [1; 1; 1] (bad_row k))) _ Hr Hx) as (o' & y & e & w & E).
    - rewrite !first_length. reflexivity.
    - intros Z. apply (f_equal (@length _)) in Z. rewrite first_length in Z. discriminate.
    - intros ex H. destruct Hs as [->|(ep & _ & ->)]; exact H.
    - exists o', (3 * N)%nat, y, e, w. split; [exact HN|]. split; [exact E|]. split; [unfold distsq, normsq; cbn; ring|].
      destruct (C97_diverges (fresh3 mu c) o' y e w 1 1 1 1 q N Hr Hs eq_refl Hq ltac:(lra)) as (-> & _); [cbn; f_equal; [ring|f_equal; [ring|f_equal; ring]]|unfold N; lia|exact E|].
      unfold distsq, normsq. cbn [vsub map2 Rdot]. 
      assert (G : Rmax 0 B < INR N0 * q). { apply Rmult_lt_compat_r with (r := q) in HN0; [|exact Hq]. unfold Rdiv in HN0. rewrite Rmult_assoc, Rinv_l, Rmult_1_r in HN0 by lra. exact HN0. }
      assert (M0 := Rmax_l 0 B). assert (M1 := Rmax_r 0 B). unfold N. rewrite S_INR. set (t := INR N0 * q) in *.
      replace (1 - (1 + (INR N0 + 1) * q) - 1) with (- (1 + (t + q))) by (unfold t; ring). cbn. nra.
  Qed.

  (** the quieter the input, the larger the jump: up to mu / eps in every weight with a non-zero input, whatever the error *)
  Theorem C97_quiet_input : forall n (o o' : obj) d x y e w eps delta k i,
    reachable n o -> o_ext o = XNSSLMS eps -> 0 < eps -> 0 <= o_mu o -> rows_of n x -> run d x o = (o', Ok (y, e, w)) -> (k < length x)%nat -> (i < n)%nat ->
    normsq (nth k x []) <= delta -> nth i (nth k x []) 0 <> 0 -> nth k e 0 <> 0 ->
    o_mu o / (eps + delta) <= Rabs (nth i (wrow w (o_w o') (Datatypes.S k)) 0 - nth i (wrow w (o_w o') k) 0) <= o_mu o / eps.
  Proof.
    intros n o o' d x y e w eps delta k i Hr Ex Heps Hmu Hx E Hk Hi Hd Hxi Hek. apply reachable_wf in Hr.
    destruct (ss_step n o o' d x y e w k Hr ltac:(right; exists eps; split; [lra|exact Ex]) Hx E Hk) as (Hrow & _ & _ & L1 & L2).
    rewrite Hrow, nth_vadd by (rewrite map_length; congruence). rewrite nth_map_R by lia. rewrite Ex. cbn [quantum].
    match goal with |- _ <= Rabs (?u + ?v - ?u) <= _ => replace (u + v - u) with v by ring end.
    assert (A : forall a, a <> 0 -> Rabs (Rsgn a) = 1).
    { intros a Ha. destruct (Rtotal_order a 0) as [H|[H|H]]; [rewrite Rsgn_neg by exact H; rewrite Rabs_left; lra|contradiction|rewrite Rsgn_pos by exact H; apply Rabs_R1]. }
    rewrite !Rabs_mult, (A _ Hxi), (A _ Hek), !Rmult_1_r. pose proof (normsq_nonneg (nth k x [])) as P.
    assert (0 < / (eps + normsq (nth k x []))) by (apply Rinv_0_lt_compat; lra).
    rewrite Rabs_pos_eq by (apply Rmult_le_pos; lra). unfold Rdiv. split; (apply Rmult_le_compat_l; [exact Hmu|]; apply Rinv_le_contravar; lra).
  Qed.

  (** NLMS identifies the system on the very same data *)
  Theorem C97_NLMS_on_the_same_data : forall (o : obj) ws eps, reachable 3 o -> o_ext o = XNLMS eps -> length ws = 3%nat -> 0 < o_mu o < 2 -> 0 <= eps ->
    exists E W, endless_run solve o (fun k => Rdot ws (bad_row k)) bad_row E W /\ Un_cv (fun k => distsq (W k) ws) 0.
  Proof.
    intros o ws eps Hr Ex Hws Hmu Heps.
    destruct (C54_NLMS solve 3 o (fun k => Rdot ws (bad_row k)) bad_row ws eps (eps + 11) Hr Ex bad_len Hws (fun k => eq_refl) Hmu Heps) as (E & W & H1 & _ & _ & H4).
    - intros k. rewrite bad_norm. lra.
    - exists E, W. split; [exact H1|]. exact (H4 3%nat 1 C97_data_are_exciting).
  Qed.

  (** the hypotheses of the two positive results are met *)
  Example C97_hypotheses :
    (exists (o o' : obj) d x y e w, reachable 2 o /\ sign_sign (o_ext o) /\ rows_of 2 x /\ run d x o = (o', Ok (y, e, w)) /\ Forall (modulus 2) x /\
       (forall v, length v = 2%nat -> modulus 2 v -> quantum (o_ext o) (o_mu o) v = / 18) /\ total (length x) (fun k => Rabs (noise [1; 1] x d k)) = 1) /\
    (exists (o o' : obj) d x y e w, reachable 1 o /\ sign_sign (o_ext o) /\ rows_of 1 x /\ run d x o = (o', Ok (y, e, w)) /\ length x = 4%nat /\
       (forall j, (j < length x)%nat -> nth 0 (nth j x []) 0 <> 0 /\ nth j d 0 = 5 * nth 0 (nth j x []) 0) /\
       (forall j, (j < length x)%nat -> 0 < 1 /\ 1 <= quantum (o_ext o) (o_mu o) (nth j x []) <= 1)).
  Proof.
    split.
    - set (o := fresh2 (1 / 2) (XNSSLMS 1)). assert (Hr : reachable 2 o) by (apply (fresh2_reachable solve (1 / 2) (Some 1) None None KNSSLMS); reflexivity).
      set (x := [[2; 2]; [2; -2]; [-2; 2]]). assert (Hx : rows_of 2 x) by (repeat constructor).
      destruct (run_exists solve 2 o [4; 1; 0] x Hr Hx eq_refl) as (o' & y & e & w & E); [discriminate|intros ex H; exact H|].
      exists o, o', [4; 1; 0], x, y, e, w. split; [exact Hr|]. split; [right; exists 1; split; [lra|reflexivity]|]. split; [exact Hx|]. split; [exact E|].
      assert (A2 : Rabs 2 = 2) by (apply Rabs_pos_eq; lra). assert (A3 : Rabs (-2) = 2) by (rewrite Rabs_left; lra).
      split; [repeat constructor; assumption|]. split.
      + intros v L M. change (quantum (o_ext o) (o_mu o) v) with (1 / 2 / (1 + normsq v)). rewrite (modulus_norm 2 v M), L. cbn. field.
      + unfold total, noise. cbn.
        repeat match goal with |- context [Rabs ?a] => first [replace (Rabs a) with 0 by (replace a with 0 by ring; symmetry; apply Rabs_R0)
          |replace (Rabs a) with 1 by (replace a with 1 by ring; symmetry; apply Rabs_R1)] end. ring.
    - set (kw := mkKw (Some 1%Z) (Some 1) (Some (WStr "zeros")) None None None None None None None None false).
      set (o := mkObj [0] 1 1 None XSSLMS : obj).
      assert (Hr : reachable 1 o) by (apply (reach_new 1 rngR KSSLMS kw); [apply rngR_ok|split; intros ? Hs; discriminate Hs|reflexivity|reflexivity]).
      set (x := [[2]; [-3]; [1]; [4]]). assert (Hx : rows_of 1 x) by (repeat constructor).
      destruct (run_exists solve 1 o [10; -15; 5; 20] x Hr Hx eq_refl) as (o' & y & e & w & E); [discriminate|intros ex H; exact H|].
      exists o, o', [10; -15; 5; 20], x, y, e, w. split; [exact Hr|]. split; [left; reflexivity|]. split; [exact Hx|]. split; [exact E|]. split; [reflexivity|].
      split; intros [|[|[|[|j]]]] Hj; cbn in *; try lia; lra.
  Qed.
End S.
