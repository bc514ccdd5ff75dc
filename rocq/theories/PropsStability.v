(** Properties C13-C18: stability and size of the updates, exact real arithmetic.
    [solve] (np.linalg.solve) is an arbitrary function: these classes do not call it. *)
From Coq Require Import Reals Lra Psatz.
From Verif Require Import Py Num Numpy Filters Registry Spec StructProofs RunProofs Reach RVec RFilter.
Open Scope R_scope.

(** ** Specification *)
(** targets produced by a fixed linear system with weights ws *)
Definition noise_free (ws : rvec) (d : rvec) (x : list rvec) : Prop :=
  forall k, (k < length x)%nat -> nth k d 0 = Rdot ws (nth k x []).

(** the distance of the weights to ws never increases during the run *)
Definition never_away (ws : rvec) (w : list rvec) (wfinal : rvec) : Prop :=
  forall k, (k < length w)%nat -> distsq (wrow w wfinal (S k)) ws <= distsq (wrow w wfinal k) ws.

(** ** tanh *)
Lemma cosh_pos u : 0 < cosh u.
Proof. unfold cosh. pose proof (exp_pos u); pose proof (exp_pos (- u)); lra. Qed.

Lemma tanh_exp u : tanh u = (exp u - exp (- u)) / (exp u + exp (- u)).
Proof.
  unfold tanh, sinh, cosh. pose proof (exp_pos u); pose proof (exp_pos (- u)). field. lra.
Qed.

Lemma tanh_abs_lt1 u : Rabs (tanh u) < 1.
Proof.
  rewrite tanh_exp. pose proof (exp_pos u); pose proof (exp_pos (- u)).
  apply Rabs_def1.
  - apply (Rmult_lt_reg_r (exp u + exp (- u))); [lra|]. field_simplify; lra.
  - apply (Rmult_lt_reg_r (exp u + exp (- u))); [lra|]. field_simplify; lra.
Qed.

Lemma tanh_opp u : tanh (- u) = - tanh u.
Proof. rewrite !tanh_exp, Ropp_involutive. pose proof (exp_pos u); pose proof (exp_pos (- u)). field. lra. Qed.

Lemma tanh_0 : tanh 0 = 0.
Proof. rewrite tanh_exp, Ropp_0, exp_0. field. Qed.

Lemma tanh_pos u : 0 <= u -> 0 <= tanh u.
Proof.
  intros Hu; rewrite tanh_exp. pose proof (exp_pos u); pose proof (exp_pos (- u)).
  apply Rmult_le_pos; [|left; apply Rinv_0_lt_compat; lra].
  assert (exp (- u) <= exp u); [|lra].
  destruct Hu as [Hu| <-]; [left; apply exp_increasing; lra|rewrite Ropp_0; lra].
Qed.

(** (2 - t) e^t <= 2 + t for t >= 0 *)
Lemma exp_pade t : 0 <= t -> (2 - t) * exp t <= 2 + t.
Proof.
  intros Ht.
  set (f := fun t => 2 + t - (2 - t) * exp t).
  assert (Df : forall c, derivable_pt_lim f c (1 - (1 - c) * exp c)).
  { intros c. unfold f.
    replace (1 - (1 - c) * exp c) with ((0 + 1) - ((0 - 1) * exp c + (2 - c) * exp c)) by ring.
    apply derivable_pt_lim_minus.
    - apply derivable_pt_lim_plus; [apply derivable_pt_lim_const|apply derivable_pt_lim_id].
    - apply (derivable_pt_lim_mult (fun t => 2 - t) exp).
      + apply derivable_pt_lim_minus; [apply derivable_pt_lim_const|apply derivable_pt_lim_id].
      + apply derivable_pt_lim_exp. }
  assert (Hpos : forall c, 0 <= 1 - (1 - c) * exp c).
  { intros c. destruct (Rle_lt_dec c 1).
    - (* exp(-c) >= 1 - c *)
      pose proof (exp_ineq1_le (- c)) as H1. pose proof (exp_pos c) as H2.
      assert (H3 : exp (- c) * exp c = 1) by (rewrite <- exp_plus, Rplus_opp_l, exp_0; reflexivity).
      assert ((1 - c) * exp c <= exp (- c) * exp c) by (apply Rmult_le_compat_r; lra). lra.
    - pose proof (exp_pos c). assert (0 <= (c - 1) * exp c) by (apply Rmult_le_pos; lra). lra. }
  destruct Ht as [Ht| <-].
  - destruct (MVT_cor2 f (fun c => 1 - (1 - c) * exp c) 0 t Ht) as (c & Hc & _).
    { intros c _; apply Df. }
    assert (f 0 = 0) by (unfold f; rewrite exp_0; ring).
    assert (0 <= f t); [|unfold f in *; lra].
    replace (f t) with ((1 - (1 - c) * exp c) * (t - 0)) by lra.
    apply Rmult_le_pos; [apply Hpos|lra].
  - rewrite exp_0; lra.
Qed.

Lemma tanh_le u : 0 <= u -> tanh u <= u.
Proof.
  intros Hu. rewrite tanh_exp. pose proof (exp_pos u); pose proof (exp_pos (- u)).
  apply (Rmult_le_reg_r (exp u + exp (- u))); [lra|].
  replace ((exp u - exp (- u)) / (exp u + exp (- u)) * (exp u + exp (- u))) with (exp u - exp (- u)) by (field; lra).
  (* multiply by exp u *)
  pose proof (exp_pade (2 * u) ltac:(lra)) as Hp.
  assert (E2 : exp (2 * u) = exp u * exp u) by (rewrite <- exp_plus; f_equal; ring).
  assert (E1 : exp (- u) * exp u = 1) by (rewrite <- exp_plus, Rplus_opp_l, exp_0; reflexivity).
  rewrite E2 in Hp.
  apply (Rmult_le_reg_r (exp u)); [auto|]. nra.
Qed.

(** ** One step *)
(** moving along x by g when the target is noise-free *)
Lemma distsq_step w x ws d g : length w = length x -> length ws = length x -> d = Rdot ws x ->
  distsq (vadd w (vsc g x)) ws = distsq w ws - 2 * g * (d - Rdot w x) + g * g * normsq x.
Proof. intros H1 H2 ->; rewrite distsq_move by auto; ring. Qed.

Lemma error_step w x d g : length w = length x ->
  d - Rdot (vadd w (vsc g x)) x = (d - Rdot w x) - g * normsq x.
Proof.
  intros H; rewrite Rdot_vadd_l by (rewrite ?vsc_length; auto). rewrite Rdot_vsc_l; unfold normsq; ring.
Qed.

Lemma normsq_zero_dot u x : normsq x = 0 -> Rdot u x = 0.
Proof. intros H; apply normsq_zero in H; rewrite H; apply Rdot_zero_r. Qed.

Section Props.
  Variable solve : list rvec -> list rvec -> option (list rvec).
  #[local] Hint Extern 0 (Num R) => exact (RNum solve) : typeclass_instances.
  Notation obj := (obj R).

  (** the weights after adapt *)
  Definition after (d : R) (x : rvec) (o : obj) : rvec := o_w (fst (adapt d x o)).

  Lemma after_textbook (o : obj) d x dw : length x = length (o_w o) ->
    textbook (o_ext o) (o_mu o) (d - Rdot (o_w o) x) x = Some dw -> after d x o = vadd (o_w o) dw.
  Proof. intros H1 H2; unfold after. rewrite (adapt_textbook solve o d x dw H1 H2); reflexivity. Qed.

  (** runs: any class whose increment is g(e, x) x *)
  Lemma run_never_away n (o o' : obj) d x y e w ws (g : R -> rvec -> R) :
    wf n o -> rowsl n x -> length ws = n -> noise_free ws d x ->
    (forall e v, textbook (o_ext o) (o_mu o) e v = Some (vsc (g e v) v)) ->
    run d x o = (o', Ok (y, e, w)) ->
    (forall k, (k < length x)%nat -> 0 < normsq (nth k x []) ->
       0 <= g (nth k e 0) (nth k x []) *
            (2 * nth k e 0 - g (nth k e 0) (nth k x []) * normsq (nth k x []))) ->
    length w = length x /\ never_away ws w (o_w o').
  Proof.
    intros Hwf Hx Hws Hnf Hg E Hc.
    assert (Hlw : length w = length x).
    { assert (Hl : length d = length x).
      { destruct (Nat.eq_dec (length d) (length x)) as [|Hne]; auto.
        rewrite run_bad_length in E by assumption; discriminate. }
      destruct x as [|x0 xs]; [destruct d; discriminate|].
      destruct (run_eq n o d (x0 :: xs) Hwf Hx Hl) as (h & E' & _); [discriminate|].
      rewrite E in E'. destruct (snd (adapt_all d (x0 :: xs) o)); [|discriminate].
      simpl in E'. injection E' as _ _ _ ->. apply wtrace_length; auto. }
    split; [exact Hlw|]. intros k Hk; rewrite Hlw in Hk.
    assert (Ht : forall e v, textbook (o_ext o) (o_mu o) e v <> None) by (intros; rewrite Hg; discriminate).
    destruct (run_textbook solve n o o' d x y e w k Hwf Hx Ht E Hk) as (dw & Htb & Hrow & Hy & He & Hl1 & Hl2).
    rewrite Hg in Htb. injection Htb as <-. rewrite Hrow.
    rewrite (distsq_step _ _ _ (nth k d 0)); [|congruence|congruence|apply Hnf; auto].
    rewrite <- Hy, <- He. specialize (Hc k Hk).
    set (gg := g (nth k e 0) (nth k x [])) in *.
    pose proof (normsq_nonneg (nth k x [])) as [Hs|Hs]; [specialize (Hc Hs); lra|].
    assert (He0 : nth k e 0 = 0).
    { rewrite He, Hy, (Hnf k Hk), !normsq_zero_dot by auto; ring. }
    rewrite He0, <- Hs; lra.
  Qed.

  (** *** C13 LMS *)
  Theorem C13_LMS_a_posteriori : forall (o : obj) d x,
    o_ext o = XLMS -> length x = length (o_w o) ->
    d - Rdot (after d x o) x = (1 - o_mu o * normsq x) * (d - Rdot (o_w o) x).
  Proof.
    intros o d x E Hl. erewrite after_textbook; [|auto|rewrite E; reflexivity].
    rewrite error_step by auto. ring.
  Qed.

  Theorem C13_LMS_step_iff : forall (o : obj) d x ws,
    o_ext o = XLMS -> length x = length (o_w o) -> length ws = length x -> d = Rdot ws x ->
    (distsq (after d x o) ws <= distsq (o_w o) ws <->
     d - Rdot (o_w o) x = 0 \/ (0 <= o_mu o /\ o_mu o * normsq x <= 2)).
  Proof.
    intros o d x ws E Hl Hlw Hd. erewrite after_textbook; [|auto|rewrite E; reflexivity].
    rewrite (distsq_step _ _ _ d) by auto.
    set (e := d - Rdot (o_w o) x). set (mu := o_mu o). pose proof (normsq_nonneg x) as Hs.
    set (s := normsq x) in *.
    replace (distsq (o_w o) ws - 2 * (mu * e) * e + mu * e * (mu * e) * s)
      with (distsq (o_w o) ws - (e * e) * (mu * (2 - mu * s))) by ring.
    pose proof (Rle_0_sqr e) as He; unfold Rsqr in He.
    split.
    - intros H. destruct (Req_dec e 0) as [|Hne]; [auto|right].
      assert (Hee : 0 < e * e) by nra.
      assert (Hm : 0 <= mu * (2 - mu * s)) by nra.
      destruct (Rle_lt_dec 0 mu) as [Hmu|Hmu].
      + split; auto. destruct Hmu as [Hmu| <-]; [nra|lra].
      + exfalso. assert (0 < 2 - mu * s) by nra. nra.
    - intros [->|(H1 & H2)]; [lra|].
      assert (0 <= mu * (2 - mu * s)) by (apply Rmult_le_pos; lra). nra.
  Qed.

  (** the documented criterion |1 - mu |x(k)|^2| <= 1 over a whole run *)
  Theorem C13_LMS_run : forall n (o o' : obj) d x y e w ws,
    reachable n o -> o_ext o = XLMS -> rows_of n x -> length ws = n -> noise_free ws d x ->
    run d x o = (o', Ok (y, e, w)) ->
    (forall k, (k < length x)%nat -> Rabs (1 - o_mu o * normsq (nth k x [])) <= 1) ->
    length w = length x /\ never_away ws w (o_w o').
  Proof.
    intros n o o' d x y e w ws Hr Ex Hx Hws Hnf E Hc. apply reachable_wf in Hr.
    apply (run_never_away n o o' d x y e w ws (fun e v => o_mu o * e)); auto.
    { intros; rewrite Ex; reflexivity. }
    intros k Hk Hs. specialize (Hc k Hk). simpl.
    set (s := normsq (nth k x [])) in *. set (ek := nth k e 0).
    assert (Hms : 0 <= o_mu o * s <= 2).
    { revert Hc; unfold Rabs; destruct (Rcase_abs _); intros; lra. }
    assert (0 <= o_mu o) by nra.
    replace (o_mu o * ek * (2 * ek - o_mu o * ek * s)) with (ek * ek * (o_mu o * (2 - o_mu o * s))) by ring.
    apply Rmult_le_pos; [apply Rle_0_sqr|apply Rmult_le_pos; lra].
  Qed.

  (** *** C14 NLMS *)
  Theorem C14_NLMS_a_posteriori : forall (o : obj) d x eps,
    o_ext o = XNLMS eps -> length x = length (o_w o) -> eps + normsq x <> 0 ->
    d - Rdot (after d x o) x = (d - Rdot (o_w o) x) * (1 - o_mu o * normsq x / (eps + normsq x)).
  Proof.
    intros o d x eps E Hl H0. erewrite after_textbook; [|auto|rewrite E; reflexivity].
    rewrite error_step by auto. field. auto.
  Qed.

  Theorem C14_NLMS_step : forall (o : obj) d x ws eps,
    o_ext o = XNLMS eps -> length x = length (o_w o) -> length ws = length x -> d = Rdot ws x ->
    0 < eps + normsq x -> 0 < normsq x -> 0 <= o_mu o <= 2 + 2 * eps / normsq x ->
    distsq (after d x o) ws <= distsq (o_w o) ws.
  Proof.
    intros o d x ws eps E Hl Hlw Hd H0 Hs (Hm1 & Hm2). erewrite after_textbook; [|auto|rewrite E; reflexivity].
    rewrite (distsq_step _ _ _ d) by auto.
    set (e := d - Rdot (o_w o) x) in *. set (mu := o_mu o) in *. set (s := normsq x) in *.
    assert (Hm : mu * s <= 2 * (eps + s)).
    { apply Rmult_le_compat_r with (r := s) in Hm2; [|lra].
      replace ((2 + 2 * eps / s) * s) with (2 * (eps + s)) in Hm2 by (field; lra). exact Hm2. }
    replace (distsq (o_w o) ws - 2 * (mu / (eps + s) * e) * e + mu / (eps + s) * e * (mu / (eps + s) * e) * s)
      with (distsq (o_w o) ws - (e * e) * (mu * (2 * (eps + s) - mu * s) / ((eps + s) * (eps + s)))) by (field; lra).
    assert (0 <= e * e * (mu * (2 * (eps + s) - mu * s) / ((eps + s) * (eps + s)))); [|lra].
    apply Rmult_le_pos; [apply Rle_0_sqr|]. apply Rmult_le_pos; [apply Rmult_le_pos; lra|].
    left; apply Rinv_0_lt_compat; nra.
  Qed.

  Lemma nlms_g mu eps s e : 0 < eps + s -> 0 <= s -> 0 <= mu -> mu * s <= 2 * (eps + s) ->
    0 <= mu / (eps + s) * e * (2 * e - mu / (eps + s) * e * s).
  Proof.
    intros H0 Hs Hm Hms.
    replace (mu / (eps + s) * e * (2 * e - mu / (eps + s) * e * s))
      with (e * e * (mu * (2 * (eps + s) - mu * s) / ((eps + s) * (eps + s)))) by (field; lra).
    apply Rmult_le_pos; [apply Rle_0_sqr|]. apply Rmult_le_pos; [apply Rmult_le_pos; lra|].
    left; apply Rinv_0_lt_compat; nra.
  Qed.

  (** the documented range 0 <= mu <= 2 + 2 eps / |x(k)|^2 over a whole run *)
  Theorem C14_NLMS_run : forall n (o o' : obj) d x y e w ws eps,
    reachable n o -> o_ext o = XNLMS eps -> rows_of n x -> length ws = n -> noise_free ws d x ->
    run d x o = (o', Ok (y, e, w)) -> 0 <= o_mu o ->
    (forall k, (k < length x)%nat -> 0 < eps + normsq (nth k x [])) ->
    (forall k, (k < length x)%nat -> 0 < normsq (nth k x []) -> o_mu o <= 2 + 2 * eps / normsq (nth k x [])) ->
    length w = length x /\ never_away ws w (o_w o').
  Proof.
    intros n o o' d x y e w ws eps Hr Ex Hx Hws Hnf E Hm Hp Hc. apply reachable_wf in Hr.
    apply (run_never_away n o o' d x y e w ws (fun e v => o_mu o / (eps + normsq v) * e)); auto.
    { intros; rewrite Ex; reflexivity. }
    intros k Hk Hs. apply nlms_g; auto; [lra|].
    specialize (Hc k Hk Hs). apply Rmult_le_compat_r with (r := normsq (nth k x [])) in Hc; [|lra].
    replace ((2 + 2 * eps / normsq (nth k x [])) * normsq (nth k x [])) with (2 * (eps + normsq (nth k x []))) in Hc
      by (field; lra). exact Hc.
  Qed.

  (** energy bound: the normalised squared errors of a run are summable by the initial distance *)
  Theorem C14_NLMS_energy : forall n (o o' : obj) d x y e w ws eps,
    reachable n o -> o_ext o = XNLMS eps -> rows_of n x -> length ws = n -> noise_free ws d x ->
    run d x o = (o', Ok (y, e, w)) -> 0 <= eps -> 0 <= o_mu o ->
    (forall k, (k < length x)%nat -> 0 < eps + normsq (nth k x [])) ->
    o_mu o * (2 - o_mu o) *
      Rsum (map (fun k => (nth k e 0) ^ 2 / (eps + normsq (nth k x []))) (seq 0 (length x)))
    <= distsq (o_w o) ws - distsq (o_w o') ws.
  Proof.
    intros n o o' d x y e w ws eps Hr Ex Hx Hws Hnf E Heps Hm Hp. apply reachable_wf in Hr.
    assert (Ht : forall e v, textbook (o_ext o) (o_mu o) e v <> None) by (intros; rewrite Ex; discriminate).
    assert (Hl : length d = length x).
    { destruct (Nat.eq_dec (length d) (length x)) as [|Hne]; auto.
      rewrite run_bad_length in E by assumption; discriminate. }
    assert (Hne : x <> []) by (intros ->; destruct d; discriminate). remember x as X eqn:EX; clear EX x.
    assert (Hlw : length w = length X /\ wrow w (o_w o') 0 = o_w o).
    { destruct (run_eq n o d X Hr Hx Hl Hne) as (h & E' & _).
      rewrite E in E'. destruct (snd (adapt_all d X o)); [|discriminate].
      simpl in E'. injection E' as _ _ _ ->. split; [apply wtrace_length; auto|].
      unfold wrow; destruct d, X; [congruence|discriminate|discriminate|reflexivity]. }
    destruct Hlw as (Hlw & Hw0).
    assert (Hstep : forall m, (m <= length X)%nat ->
      o_mu o * (2 - o_mu o) * Rsum (map (fun k => (nth k e 0) ^ 2 / (eps + normsq (nth k X []))) (seq 0 m))
      <= distsq (wrow w (o_w o') 0) ws - distsq (wrow w (o_w o') m) ws).
    { induction m as [|m IH]; intros Hm'; [simpl; lra|].
      specialize (IH ltac:(lia)).
      assert (Hsum : forall (f : nat -> R) j, Rsum (map f (seq 0 (S j))) = Rsum (map f (seq 0 j)) + f j).
      { intros f j. rewrite seq_S, map_app. simpl.
        generalize (map f (seq 0 j)); induction l as [|a l IHl]; simpl; [ring|rewrite IHl; ring]. }
      rewrite Hsum.
      destruct (run_textbook solve n o o' d X y e w m Hr Hx Ht E ltac:(lia)) as (dw & Htb & Hrow & Hy & He & Hl1 & Hl2).
      rewrite Ex in Htb; simpl in Htb. injection Htb as <-. rewrite Hrow.
      rewrite (distsq_step _ _ _ (nth m d 0)); [|rewrite Hl1; symmetry; exact Hl2|rewrite Hws; symmetry; exact Hl2|apply Hnf; exact Hm'].
      rewrite <- Hy, <- He. specialize (Hp m ltac:(lia)).
      set (s := normsq (nth m X [])) in *. pose proof (normsq_nonneg (nth m X [])) as Hs; fold s in Hs.
      set (ek := nth m e 0) in *. set (mu := o_mu o) in *.
      assert (Hq : mu * (2 - mu) * (ek ^ 2 / (eps + s)) <=
                   2 * (mu / (eps + s) * ek) * ek - mu / (eps + s) * ek * (mu / (eps + s) * ek) * s).
      { apply Rminus_le.
        replace (mu * (2 - mu) * (ek ^ 2 / (eps + s)) -
          (2 * (mu / (eps + s) * ek) * ek - mu / (eps + s) * ek * (mu / (eps + s) * ek) * s))
          with (- (mu * mu * (ek * ek) * eps / ((eps + s) * (eps + s)))) by (field; lra).
        assert (0 <= mu * mu * (ek * ek) * eps / ((eps + s) * (eps + s))); [|lra].
        apply Rmult_le_pos; [|left; apply Rinv_0_lt_compat; nra].
        apply Rmult_le_pos; [|auto]. apply Rmult_le_pos; apply Rle_0_sqr. }
      rewrite Rmult_plus_distr_l. lra. }
    specialize (Hstep (length X) (le_n _)).
    assert (HwN : wrow w (o_w o') (length X) = o_w o').
    { unfold wrow; rewrite app_nth2 by lia. rewrite Hlw, Nat.sub_diag; reflexivity. }
    rewrite HwN, Hw0 in Hstep. exact Hstep.
  Qed.

  (** *** C15 LMF, NLMF *)
  Theorem C15_LMF_a_posteriori : forall (o : obj) d x,
    o_ext o = XLMF -> length x = length (o_w o) ->
    let e := d - Rdot (o_w o) x in
    d - Rdot (after d x o) x = e * (1 - o_mu o * e ^ 2 * normsq x).
  Proof.
    intros o d x E Hl e. erewrite after_textbook; [|auto|rewrite E; reflexivity].
    rewrite error_step by auto. fold e. ring.
  Qed.

  Theorem C15_LMF_run : forall n (o o' : obj) d x y e w ws,
    reachable n o -> o_ext o = XLMF -> rows_of n x -> length ws = n -> noise_free ws d x ->
    run d x o = (o', Ok (y, e, w)) ->
    (forall k, (k < length x)%nat -> 0 <= o_mu o * nth k e 0 ^ 2 * normsq (nth k x []) <= 2) ->
    length w = length x /\ never_away ws w (o_w o').
  Proof.
    intros n o o' d x y e w ws Hr Ex Hx Hws Hnf E Hc. apply reachable_wf in Hr.
    apply (run_never_away n o o' d x y e w ws (fun e v => o_mu o * e ^ 3)); auto.
    { intros; rewrite Ex; reflexivity. }
    intros k Hk Hs. specialize (Hc k Hk).
    set (s := normsq (nth k x [])) in *. set (ek := nth k e 0) in *. set (mu := o_mu o) in *.
    assert (He : 0 <= ek ^ 2) by nra.
    assert (Hme : 0 <= mu * ek ^ 2) by nra.
    replace (mu * ek ^ 3 * (2 * ek - mu * ek ^ 3 * s)) with (mu * ek ^ 2 * ek ^ 2 * (2 - mu * ek ^ 2 * s)) by ring.
    apply Rmult_le_pos; [apply Rmult_le_pos; auto|lra].
  Qed.

  Theorem C15_NLMF_a_posteriori : forall (o : obj) d x eps,
    o_ext o = XNLMF eps -> length x = length (o_w o) -> eps + normsq x <> 0 ->
    let e := d - Rdot (o_w o) x in
    d - Rdot (after d x o) x = e * (1 - o_mu o * e ^ 2 * normsq x / (eps + normsq x)).
  Proof.
    intros o d x eps E Hl H0 e. erewrite after_textbook; [|auto|rewrite E; reflexivity].
    rewrite error_step by auto. fold e. field. auto.
  Qed.

  Theorem C15_NLMF_run : forall n (o o' : obj) d x y e w ws eps,
    reachable n o -> o_ext o = XNLMF eps -> rows_of n x -> length ws = n -> noise_free ws d x ->
    run d x o = (o', Ok (y, e, w)) ->
    (forall k, (k < length x)%nat ->
       0 < eps + normsq (nth k x []) /\
       0 <= o_mu o * nth k e 0 ^ 2 * normsq (nth k x []) / (eps + normsq (nth k x [])) <= 2) ->
    length w = length x /\ never_away ws w (o_w o').
  Proof.
    intros n o o' d x y e w ws eps Hr Ex Hx Hws Hnf E Hc. apply reachable_wf in Hr.
    apply (run_never_away n o o' d x y e w ws (fun e v => o_mu o / (eps + normsq v) * e ^ 3)); auto.
    { intros; rewrite Ex; reflexivity. }
    intros k Hk Hs. destruct (Hc k Hk) as (Hp & H1 & H2).
    set (s := normsq (nth k x [])) in *. set (ek := nth k e 0) in *.
    set (c := o_mu o / (eps + s)).
    replace (o_mu o * ek ^ 2 * s / (eps + s)) with (c * ek ^ 2 * s) in * by (unfold c; field; lra).
    assert (He : 0 <= ek ^ 2) by nra.
    assert (Hme : 0 <= c * ek ^ 2) by nra.
    replace (c * ek ^ 3 * (2 * ek - c * ek ^ 3 * s)) with (c * ek ^ 2 * ek ^ 2 * (2 - c * ek ^ 2 * s)) by ring.
    apply Rmult_le_pos; [apply Rmult_le_pos; auto|lra].
  Qed.

  (** the increment is odd and cubic in the error: an error c times larger moves the weights c^3 times
      as far *)
  Theorem C15_LMF_cubic : forall (o : obj) d d' x c,
    o_ext o = XLMF \/ (exists eps, o_ext o = XNLMF eps) -> length x = length (o_w o) ->
    d' - Rdot (o_w o) x = c * (d - Rdot (o_w o) x) ->
    forall i, nth i (after d' x o) 0 - nth i (o_w o) 0 = c ^ 3 * (nth i (after d x o) 0 - nth i (o_w o) 0).
  Proof.
    intros o d d' x c [E|(eps & E)] Hl Hc i.
    - erewrite (after_textbook o d'); [|auto|rewrite E; reflexivity].
      erewrite (after_textbook o d); [|auto|rewrite E; reflexivity].
      rewrite !nth_vadd by (rewrite vsc_length; auto). rewrite !nth_vsc, Hc. ring.
    - erewrite (after_textbook o d'); [|auto|rewrite E; reflexivity].
      erewrite (after_textbook o d); [|auto|rewrite E; reflexivity].
      rewrite !nth_vadd by (rewrite vsc_length; auto). rewrite !nth_vsc, Hc. ring.
  Qed.

  (** *** C16 sign-sign filters *)
  Lemma Rsgn_int a : exists z : Z, Rsgn a = IZR z /\ (Z.abs z <= 1)%Z.
  Proof.
    unfold Rsgn. destruct (Rlt_dec a 0); [exists (-1)%Z|destruct (Rlt_dec 0 a); [exists 1%Z|exists 0%Z]];
      split; auto; lia.
  Qed.

  Lemma nth_map_R (f : R -> R) v i : (i < length v)%nat -> nth i (map f v) 0 = f (nth i v 0).
  Proof. intros H; rewrite (nth_indep _ 0 (f 0)) by (rewrite map_length; auto). apply map_nth. Qed.

  Theorem C16_SSLMS_step : forall (o : obj) d x i,
    o_ext o = XSSLMS -> length x = length (o_w o) -> (i < length x)%nat ->
    nth i (after d x o) 0 = nth i (o_w o) 0 + o_mu o * Rsgn (nth i x 0) * Rsgn (d - Rdot (o_w o) x).
  Proof.
    intros o d x i E Hl Hi. erewrite after_textbook; [|auto|rewrite E; reflexivity].
    rewrite nth_vadd by (rewrite map_length; auto). rewrite nth_map_R by auto. reflexivity.
  Qed.

  Theorem C16_SSLMS_run : forall n (o o' : obj) d x y e w k i,
    reachable n o -> o_ext o = XSSLMS -> rows_of n x -> run d x o = (o', Ok (y, e, w)) ->
    (k <= length x)%nat -> (i < n)%nat ->
    exists z : Z, (Z.abs z <= Z.of_nat k)%Z /\
      nth i (wrow w (o_w o') k) 0 = nth i (o_w o) 0 + o_mu o * IZR z.
  Proof.
    intros n o o' d x y e w k i Hr Ex Hx E Hk Hi. apply reachable_wf in Hr.
    assert (Ht : forall e v, textbook (o_ext o) (o_mu o) e v <> None) by (intros; rewrite Ex; discriminate).
    assert (Hl : length d = length x).
    { destruct (Nat.eq_dec (length d) (length x)) as [|Hne]; auto.
      rewrite run_bad_length in E by assumption; discriminate. }
    induction k as [|k IH].
    - exists 0%Z; split; [lia|]. rewrite Rmult_0_r, Rplus_0_r.
      destruct x as [|x0 xs]; [destruct d; discriminate|].
      destruct (run_eq n o d (x0 :: xs) Hr Hx Hl) as (h & E' & _); [discriminate|].
      rewrite E in E'. destruct (snd (adapt_all d (x0 :: xs) o)); [|discriminate].
      simpl in E'. injection E' as _ _ _ ->. unfold wrow; destruct d; [discriminate|reflexivity].
    - destruct (IH ltac:(lia)) as (z & Hz & Hw).
      destruct (run_textbook solve n o o' d x y e w k Hr Hx Ht E ltac:(lia)) as (dw & Htb & Hrow & Hy & He & Hl1 & Hl2).
      rewrite Ex in Htb; simpl in Htb. injection Htb as <-. rewrite Hrow.
      rewrite nth_vadd by (rewrite map_length; congruence). rewrite nth_map_R by congruence. rewrite Hw.
      destruct (Rsgn_int (nth i (nth k x []) 0)) as (z1 & -> & H1).
      destruct (Rsgn_int (nth k e 0)) as (z2 & -> & H2).
      exists (z + z1 * z2)%Z. split; [nia|]. rewrite plus_IZR, mult_IZR. ring.
  Qed.

  Theorem C16_NSSLMS_step : forall (o : obj) d x i eps,
    o_ext o = XNSSLMS eps -> length x = length (o_w o) -> (i < length x)%nat ->
    nth i (after d x o) 0 = nth i (o_w o) 0 +
      o_mu o / (eps + normsq x) * Rsgn (nth i x 0) * Rsgn (d - Rdot (o_w o) x).
  Proof.
    intros o d x i eps E Hl Hi. erewrite after_textbook; [|auto|rewrite E; reflexivity].
    rewrite nth_vadd by (rewrite map_length; auto). rewrite nth_map_R by auto. reflexivity.
  Qed.

  Lemma Rsgn_abs a : Rabs (Rsgn a) <= 1.
  Proof. destruct (Rsgn_int a) as (z & -> & Hz). rewrite <- abs_IZR. apply IZR_le. lia. Qed.

  Theorem C16_NSSLMS_drift : forall n (o o' : obj) d x y e w k i eps,
    reachable n o -> o_ext o = XNSSLMS eps -> 0 < eps -> rows_of n x -> run d x o = (o', Ok (y, e, w)) ->
    (k < length x)%nat -> (i < n)%nat ->
    Rabs (nth i (wrow w (o_w o') (S k)) 0 - nth i (wrow w (o_w o') k) 0) <= Rabs (o_mu o) / eps.
  Proof.
    intros n o o' d x y e w k i eps Hr Ex Heps Hx E Hk Hi. apply reachable_wf in Hr.
    assert (Ht : forall e v, textbook (o_ext o) (o_mu o) e v <> None) by (intros; rewrite Ex; discriminate).
    destruct (run_textbook solve n o o' d x y e w k Hr Hx Ht E Hk) as (dw & Htb & Hrow & Hy & He & Hl1 & Hl2).
    rewrite Ex in Htb; simpl in Htb. injection Htb as <-. rewrite Hrow.
    rewrite nth_vadd by (rewrite map_length; congruence). rewrite nth_map_R by congruence.
    set (s := normsq (nth k x [])). pose proof (normsq_nonneg (nth k x [])) as Hs; fold s in Hs.
    match goal with |- Rabs (?a + ?b - ?a) <= _ => replace (a + b - a) with b by ring end.
    rewrite !Rabs_mult. unfold Rdiv. rewrite Rabs_mult, Rabs_inv.
    rewrite (Rabs_pos_eq (eps + s)) by lra.
    pose proof (Rsgn_abs (nth i (nth k x []) 0)) as A1. pose proof (Rsgn_abs (nth k e 0)) as A2.
    pose proof (Rabs_pos (Rsgn (nth i (nth k x []) 0))) as B1. pose proof (Rabs_pos (Rsgn (nth k e 0))) as B2.
    assert (Hi' : 0 < / (eps + s) <= / eps) by (split; [apply Rinv_0_lt_compat; lra|apply Rinv_le_contravar; lra]).
    pose proof (Rabs_pos (o_mu o)) as Hm.
    apply Rle_trans with (Rabs (o_mu o) * / (eps + s) * 1 * 1); [|rewrite !Rmult_1_r; apply Rmult_le_compat_l; lra].
    assert (0 <= Rabs (o_mu o) * / (eps + s)) by (apply Rmult_le_pos; lra).
    apply Rmult_le_compat; auto; [apply Rmult_le_pos; auto|apply Rmult_le_compat_l; auto].
  Qed.

  (** *** C17 Llncosh *)
  Theorem C17_Llncosh_robust : forall (o : obj) d x la i,
    o_ext o = XLlncosh la -> length x = length (o_w o) -> (i < length x)%nat ->
    Rabs (nth i (after d x o) 0 - nth i (o_w o) 0) <= Rabs (o_mu o) * Rabs (nth i x 0).
  Proof.
    intros o d x la i E Hl Hi. erewrite after_textbook; [|auto|rewrite E; reflexivity].
    rewrite nth_vadd by (rewrite vsc_length; auto). rewrite nth_vsc.
    match goal with |- Rabs (?a + ?b - ?a) <= _ => replace (a + b - a) with b by ring end.
    rewrite !Rabs_mult. apply Rmult_le_compat_r; [apply Rabs_pos|].
    pose proof (tanh_abs_lt1 (la * (d - Rdot (o_w o) x))). pose proof (Rabs_pos (o_mu o)). nra.
  Qed.

  Lemma tanh_sector la e : 0 <= la -> 0 <= e -> 0 <= tanh (la * e) <= la * e.
  Proof.
    intros; assert (0 <= la * e) by (apply Rmult_le_pos; auto).
    split; [apply tanh_pos|apply tanh_le]; auto.
  Qed.

  Theorem C17_Llncosh_run : forall n (o o' : obj) d x y e w ws la,
    reachable n o -> o_ext o = XLlncosh la -> rows_of n x -> length ws = n -> noise_free ws d x ->
    run d x o = (o', Ok (y, e, w)) -> 0 <= o_mu o -> 0 <= la ->
    (forall k, (k < length x)%nat -> o_mu o * la * normsq (nth k x []) <= 2) ->
    length w = length x /\ never_away ws w (o_w o').
  Proof.
    intros n o o' d x y e w ws la Hr Ex Hx Hws Hnf E Hm Hla Hc. apply reachable_wf in Hr.
    apply (run_never_away n o o' d x y e w ws (fun e v => o_mu o * tanh (la * e))); auto.
    { intros; rewrite Ex; reflexivity. }
    intros k Hk Hs. specialize (Hc k Hk).
    set (s := normsq (nth k x [])) in *. set (ek := nth k e 0) in *. set (mu := o_mu o) in *.
    assert (Hpos : forall a, 0 <= a -> 0 <= mu * tanh (la * a) * (2 * a - mu * tanh (la * a) * s)).
    { intros a Ha. destruct (tanh_sector la a Hla Ha) as (T1 & T2).
      assert (G1 : 0 <= mu * tanh (la * a)) by (apply Rmult_le_pos; auto).
      assert (G2 : mu * tanh (la * a) * s <= mu * (la * a) * s).
      { apply Rmult_le_compat_r; [lra|]. apply Rmult_le_compat_l; auto. }
      assert (G3 : mu * (la * a) * s <= 2 * a).
      { replace (mu * (la * a) * s) with (mu * la * s * a) by ring. apply Rmult_le_compat_r; auto. }
      apply Rmult_le_pos; lra. }
    destruct (Rle_lt_dec 0 ek) as [He|He]; [apply Hpos; auto|].
    specialize (Hpos (- ek) ltac:(lra)).
    replace (la * - ek) with (- (la * ek)) in Hpos by ring. rewrite tanh_opp in Hpos. nra.
  Qed.

  (** *** C18 GMCC *)
  (** |e|^al as the code computes it is non-negative *)
  Lemma Rpowf_nonneg a b : 0 <= Rpowf a b.
  Proof.
    unfold Rpowf. destruct (Req_EM_T a 0); [destruct (Req_EM_T b 0); lra|].
    unfold Rpower; left; apply exp_pos.
  Qed.

  Lemma exp_le_1 u : u <= 0 -> exp u <= 1.
  Proof. intros [H| ->]; [rewrite <- exp_0; left; apply exp_increasing; auto|rewrite exp_0; lra]. Qed.

  (** size of the increment: at most mu la al |e|^(al-1) |x_i|, in the direction of e x *)
  Theorem C18_GMCC_bound : forall (o : obj) d x la al i,
    o_ext o = XGMCC la al -> length x = length (o_w o) -> 0 <= la -> 0 <= al -> 0 <= o_mu o ->
    let e := d - Rdot (o_w o) x in
    Rabs (nth i (after d x o) 0 - nth i (o_w o) 0)
      <= o_mu o * la * al * Rpowf (Rabs e) (al - 1) * Rabs (nth i x 0) /\
    0 <= (nth i (after d x o) 0 - nth i (o_w o) 0) * (e * nth i x 0).
  Proof.
    intros o d x la al i E Hl Hla Hal Hmu e. erewrite after_textbook; [|auto|rewrite E; reflexivity].
    rewrite nth_vadd by (rewrite vsc_length; auto). rewrite nth_vsc. fold e.
    match goal with |- Rabs (?a + ?b - ?a) <= _ /\ _ => replace (a + b - a) with b by ring end.
    set (P := Rpowf (Rabs e) al). set (Q := Rpowf (Rabs e) (al - 1)).
    assert (HP : 0 <= P) by apply Rpowf_nonneg. assert (HQ : 0 <= Q) by apply Rpowf_nonneg.
    set (E1 := exp (- la * P)).
    assert (HE : 0 < E1 <= 1).
    { split; [apply exp_pos|apply exp_le_1]. assert (0 <= la * P) by (apply Rmult_le_pos; auto). lra. }
    assert (Hc : 0 <= o_mu o * la * al) by (apply Rmult_le_pos; [apply Rmult_le_pos|]; auto).
    set (c := o_mu o * la * al) in *.
    assert (HcE : 0 <= c * E1 <= c) by (split; [apply Rmult_le_pos; lra|nra]).
    assert (HcEQ : 0 <= c * E1 * Q <= c * Q).
    { split; [apply Rmult_le_pos; lra|apply Rmult_le_compat_r; lra]. }
    split.
    - rewrite !Rabs_mult. rewrite <- (Rabs_mult c E1), <- (Rabs_mult (c * E1) Q).
      rewrite (Rabs_pos_eq (c * E1 * Q)) by lra.
      apply Rmult_le_compat_r; [apply Rabs_pos|].
      pose proof (Rsgn_abs e); pose proof (Rabs_pos (Rsgn e)). nra.
    - replace (c * E1 * Q * Rsgn e * nth i x 0 * (e * nth i x 0))
        with ((c * E1 * Q) * ((Rsgn e * e) * (nth i x 0 * nth i x 0))) by ring.
      apply Rmult_le_pos; [lra|]. apply Rmult_le_pos; [|apply Rle_0_sqr].
      unfold Rsgn. destruct (Rlt_dec e 0); [lra|]. destruct (Rlt_dec 0 e); lra.
  Qed.

  Lemma Rpowf_2 a : 0 <= a -> Rpowf a 2 = a * a.
  Proof.
    intros Ha; unfold Rpowf. destruct (Req_EM_T a 0) as [->|Hne].
    - destruct (Req_EM_T 2 0); [lra|ring].
    - replace 2 with (1 + 1) by ring. rewrite Rpower_plus, Rpower_1 by lra. reflexivity.
  Qed.

  Lemma Rpowf_1 a : 0 <= a -> Rpowf a (2 - 1) = a.
  Proof.
    intros Ha; unfold Rpowf. destruct (Req_EM_T a 0) as [->|Hne].
    - destruct (Req_EM_T (2 - 1) 0); [lra|ring].
    - replace (2 - 1) with 1 by ring. rewrite Rpower_1 by lra. reflexivity.
  Qed.

  Lemma abs_sgn e : Rabs e * Rsgn e = e.
  Proof.
    unfold Rsgn. destruct (Rlt_dec e 0); [rewrite Rabs_left by auto; ring|].
    destruct (Rlt_dec 0 e); [rewrite Rabs_pos_eq by lra; ring|].
    assert (e = 0) by lra; subst; ring.
  Qed.

  Theorem C18_GMCC_alpha2 : forall (o : obj) d x la i,
    o_ext o = XGMCC la 2 -> length x = length (o_w o) ->
    let e := d - Rdot (o_w o) x in
    nth i (after d x o) 0 = nth i (o_w o) 0 + (2 * o_mu o * la * exp (- la * (e * e))) * e * nth i x 0.
  Proof.
    intros o d x la i E Hl e. erewrite after_textbook; [|auto|rewrite E; reflexivity].
    rewrite nth_vadd by (rewrite vsc_length; auto). rewrite nth_vsc. fold e.
    rewrite Rpowf_2 by apply Rabs_pos. rewrite Rpowf_1 by apply Rabs_pos.
    replace (Rabs e * Rabs e) with (e * e) by (rewrite <- Rabs_mult, Rabs_pos_eq; [reflexivity|apply Rle_0_sqr]).
    rewrite (Rmult_assoc _ (Rabs e)), abs_sgn. ring.
  Qed.

  (** the docstring's claim "alpha = 2 makes the filter LMS" is false for every fixed LMS rate *)
  Theorem C18_GMCC_alpha2_is_LMS_refuted : forall (o : obj) x la i,
    o_ext o = XGMCC la 2 -> length x = length (o_w o) -> o_mu o * la <> 0 -> nth i x 0 <> 0 ->
    ~ exists mu', forall d (o2 : obj), o_ext o2 = XLMS -> o_w o2 = o_w o -> o_mu o2 = mu' ->
        nth i (after d x o) 0 = nth i (after d x o2) 0.
  Proof.
    intros o x la i E Hl Hml Hx (mu' & H).
    assert (Hm : forall d, 2 * (o_mu o * la) * exp (- la * ((d - Rdot (o_w o) x) * (d - Rdot (o_w o) x))) *
        (d - Rdot (o_w o) x) = mu' * (d - Rdot (o_w o) x)).
    { intros d. specialize (H d (mkObj (o_w o) (o_n o) mu' None XLMS) eq_refl eq_refl eq_refl).
      rewrite (C18_GMCC_alpha2 o d x la i E Hl) in H.
      erewrite after_textbook in H; [|auto|reflexivity].
      rewrite nth_vadd in H by (rewrite vsc_length; auto). rewrite nth_vsc in H. cbn [o_w o_mu] in H.
      apply (Rmult_eq_reg_r (nth i x 0)); auto. lra. }
    pose proof (Hm (Rdot (o_w o) x + 1)) as H1. pose proof (Hm (Rdot (o_w o) x + 2)) as H2.
    replace (Rdot (o_w o) x + 1 - Rdot (o_w o) x) with 1 in H1 by ring.
    replace (Rdot (o_w o) x + 2 - Rdot (o_w o) x) with 2 in H2 by ring.
    assert (Heq : exp (- la * (1 * 1)) = exp (- la * (2 * 2))).
    { apply (Rmult_eq_reg_l (2 * (o_mu o * la))); [lra|]. lra. }
    apply exp_inv in Heq. assert (la = 0) by lra. subst la. apply Hml; ring.
  Qed.

  (** alpha = 2: the increment is bounded whatever the error *)
  Theorem C18_GMCC_alpha2_robust : forall (o : obj) d x la i,
    o_ext o = XGMCC la 2 -> length x = length (o_w o) -> 0 < la ->
    Rabs (nth i (after d x o) 0 - nth i (o_w o) 0) <= Rabs (o_mu o) * sqrt la * Rabs (nth i x 0).
  Proof.
    intros o d x la i E Hl Hla. rewrite (C18_GMCC_alpha2 o d x la i E Hl).
    set (e := d - Rdot (o_w o) x).
    match goal with |- Rabs (?a + ?b - ?a) <= _ => replace (a + b - a) with b by ring end.
    rewrite Rabs_mult. apply Rmult_le_compat_r; [apply Rabs_pos|].
    replace (2 * o_mu o * la * exp (- la * (e * e)) * e)
      with (o_mu o * (2 * la * e * exp (- la * (e * e)))) by ring.
    rewrite Rabs_mult. apply Rmult_le_compat_l; [apply Rabs_pos|].
    rewrite Rabs_mult, (Rabs_pos_eq (exp _)) by (left; apply exp_pos).
    set (r := sqrt la). assert (Hr : r * r = la) by (apply sqrt_sqrt; lra).
    assert (Hr0 : 0 < r) by (apply sqrt_lt_R0; auto).
    assert (Habs : Rabs (2 * la * e) = 2 * la * Rabs e).
    { rewrite Rabs_mult, Rabs_pos_eq by lra. reflexivity. }
    rewrite Habs. set (a := Rabs e). assert (Ha : 0 <= a) by apply Rabs_pos.
    assert (Hee : e * e = a * a) by (unfold a; rewrite <- Rabs_mult, Rabs_pos_eq; [reflexivity|apply Rle_0_sqr]).
    rewrite Hee. pose proof (exp_ineq1_le (la * (a * a))) as H1.
    assert (H2 : exp (- la * (a * a)) * exp (la * (a * a)) = 1).
    { rewrite <- exp_plus. replace (- la * (a * a) + la * (a * a)) with 0 by ring. apply exp_0. }
    pose proof (exp_pos (- la * (a * a))) as H3.
    set (E1 := exp (- la * (a * a))) in *. set (E2 := exp (la * (a * a))) in *.
    assert (H4 : E1 * (1 + la * (a * a)) <= 1) by nra.
    assert (H5 : 2 * (r * a) <= 1 + la * (a * a)).
    { rewrite <- Hr. pose proof (Rle_0_sqr (r * a - 1)) as Hs; unfold Rsqr in Hs. nra. }
    replace (2 * la * a * E1) with (r * (E1 * (2 * (r * a)))) by (rewrite <- Hr; ring).
    apply Rle_trans with (r * 1); [|lra]. apply Rmult_le_compat_l; [lra|].
    apply Rle_trans with (E1 * (1 + la * (a * a))); [apply Rmult_le_compat_l; lra|exact H4].
  Qed.

  (** alpha = 2, noise-free targets: stable when mu la |x(k)|^2 <= 1 *)
  Theorem C18_GMCC_alpha2_run : forall n (o o' : obj) d x y e w ws la,
    reachable n o -> o_ext o = XGMCC la 2 -> rows_of n x -> length ws = n -> noise_free ws d x ->
    run d x o = (o', Ok (y, e, w)) -> 0 <= o_mu o -> 0 <= la ->
    (forall k, (k < length x)%nat -> o_mu o * la * normsq (nth k x []) <= 1) ->
    length w = length x /\ never_away ws w (o_w o').
  Proof.
    intros n o o' d x y e w ws la Hr Ex Hx Hws Hnf E Hm Hla Hc. apply reachable_wf in Hr.
    apply (run_never_away n o o' d x y e w ws
      (fun e v => o_mu o * la * 2 * exp (- la * Rpowf (Rabs e) 2) * Rpowf (Rabs e) (2 - 1) * Rsgn e)); auto.
    { intros; rewrite Ex; reflexivity. }
    intros k Hk Hs. specialize (Hc k Hk).
    set (s := normsq (nth k x [])) in *. set (ek := nth k e 0) in *. set (mu := o_mu o) in *.
    rewrite Rpowf_1 by apply Rabs_pos. rewrite (Rmult_assoc _ (Rabs ek)), abs_sgn.
    pose proof (Rpowf_nonneg (Rabs ek) 2) as HP. set (P := Rpowf (Rabs ek) 2) in *.
    assert (HE : 0 < exp (- la * P) <= 1).
    { split; [apply exp_pos|apply exp_le_1]. assert (0 <= la * P) by (apply Rmult_le_pos; auto). lra. }
    set (E1 := exp (- la * P)) in *.
    replace (mu * la * 2 * E1 * ek * (2 * ek - mu * la * 2 * E1 * ek * s))
      with (4 * (mu * la) * E1 * (ek * ek) * (1 - E1 * (mu * la * s))) by ring.
    assert (0 <= mu * la) by (apply Rmult_le_pos; auto).
    assert (0 <= ek * ek) by apply Rle_0_sqr.
    apply Rmult_le_pos; [|assert (0 <= mu * la * s) by (apply Rmult_le_pos; lra); nra].
    apply Rmult_le_pos; [apply Rmult_le_pos; lra|auto].
  Qed.

  (** *** The hypotheses can be met *)
  Definition rngR (k : nat) : rvec := repeat 0 k.
  Lemma rngR_ok : rng_ok rngR.
  Proof. intros k; apply repeat_length. Qed.

  (** a new filter of a memoryless class *)
  Definition fresh2 (mu : R) (x : ext R) : obj := mkObj [0; 0] 2 mu None x.
  Definition kwR (mu : R) (eps la al : option R) : kwargs R :=
    mkKw (Some 2%Z) (Some mu) (Some (WStr "zeros")) eps None None la al None None None false.

  Lemma fresh2_reachable mu eps la al k x :
    new_filter rngR k (kwR mu eps la al) = Ok (fresh2 mu x) -> reachable 2 (fresh2 mu x).
  Proof.
    intros H. apply (reach_new 2 rngR k (kwR mu eps la al)).
    - apply rngR_ok.
    - split; intros ? Hs; discriminate Hs.
    - reflexivity.
    - exact H.
  Qed.

  Lemma run_exists n (o : obj) d x : reachable n o -> rows_of n x -> length d = length x -> x <> [] ->
    (forall ex, ~ soft_exn o ex) -> exists o' y e w, run d x o = (o', Ok (y, e, w)).
  Proof.
    intros Hr Hx Hl Hne Hs. apply reachable_wf in Hr.
    destruct (run_eq n o d x Hr Hx Hl Hne) as (h & -> & _).
    destruct (adapt_all_ok n d x o Hr Hx) as (o' & r & -> & _ & _ & _ & [-> | (ex & -> & He)]).
    - do 4 eexists; reflexivity.
    - exfalso; eapply Hs; eauto.
  Qed.

  Definition xs0 : list rvec := [[1; 0]; [1; 1]].
  Definition ds0 : rvec := [3; 7].
  Definition ws0 : rvec := [3; 4].

  Lemma xs0_rows : rows_of 2 xs0.
  Proof. repeat constructor. Qed.
  Lemma xs0_noise_free : noise_free ws0 ds0 xs0.
  Proof. intros [|[|k]] H; simpl in *; try lia; lra. Qed.

  (** LMS, NLMS, LMF, NLMF, Llncosh and GMCC filters meeting the hypotheses of the run theorems, with an
      error that is not zero at the first sample *)
  Lemma witness k mu eps la al x :
    new_filter rngR k (kwR mu eps la al) = Ok (fresh2 mu x) ->
    (forall e v, textbook x mu e v <> None) ->
    exists o' y e w, reachable 2 (fresh2 mu x) /\ run ds0 xs0 (fresh2 mu x) = (o', Ok (y, e, w)) /\ nth 0 e 0 = 3.
  Proof.
    intros Hk Ht. pose proof (fresh2_reachable mu eps la al k x Hk) as Hr.
    destruct (run_exists 2 (fresh2 mu x) ds0 xs0 Hr xs0_rows eq_refl) as (o' & y & e & w & E).
    - discriminate.
    - intros ex He; unfold soft_exn in He; cbn [fresh2 o_ext] in He.
      destruct x; try exact He; apply (Ht 0 []); reflexivity.
    - exists o', y, e, w. split; [exact Hr|]. split; [exact E|].
      apply reachable_wf in Hr.
      destruct (run_step solve 2 _ _ _ _ _ _ _ 0 Hr xs0_rows E) as (s & s' & _ & _ & Es & _ & _ & _ & _ & Hy & He & _);
        [simpl; lia|].
      rewrite He, Hy, Es. unfold state_after; cbn [firstn adapt_all].
      assert (Hap : is_AP (fresh2 mu x) = false)
        by (unfold is_AP; cbn; destruct x; auto; exfalso; apply (Ht 0 []); reflexivity).
      assert (Hoc : is_OCNLMS (fresh2 mu x) = false)
        by (unfold is_OCNLMS; cbn; destruct x; auto; exfalso; apply (Ht 0 []); reflexivity).
      unfold ret; cbn [fst]. unfold pred_out. rewrite Hap, predict_plain by exact Hoc. simpl. lra.
  Qed.

  Example C13_hypotheses : exists o o' d x y e w ws,
    reachable 2 o /\ o_ext o = XLMS /\ rows_of 2 x /\ length ws = 2%nat /\ noise_free ws d x /\
    run d x o = (o', Ok (y, e, w)) /\
    (forall k, (k < length x)%nat -> Rabs (1 - o_mu o * normsq (nth k x [])) <= 1) /\ nth 0 e 0 = 3.
  Proof.
    destruct (witness KLMS (1 / 2) None None None XLMS eq_refl) as (o' & y & e & w & Hr & E & H0); [discriminate|].
    exists (fresh2 (1 / 2) XLMS), o', ds0, xs0, y, e, w, ws0.
    repeat split; auto using xs0_rows, xs0_noise_free.
    intros [|[|k]] Hk; unfold normsq; simpl in *; try lia; apply Rabs_le; lra.
  Qed.

  Example C14_hypotheses : exists o o' d x y e w ws,
    reachable 2 o /\ o_ext o = XNLMS (1 / 10) /\ rows_of 2 x /\ length ws = 2%nat /\ noise_free ws d x /\
    run d x o = (o', Ok (y, e, w)) /\ 0 < o_mu o < 2 /\ nth 0 e 0 = 3 /\
    (forall k, (k < length x)%nat -> 0 < 1 / 10 + normsq (nth k x [])) /\
    (forall k, (k < length x)%nat -> 0 < normsq (nth k x []) -> o_mu o <= 2 + 2 * (1 / 10) / normsq (nth k x [])).
  Proof.
    destruct (witness KNLMS 1 (Some (1 / 10)) None None (XNLMS (1 / 10)) eq_refl) as (o' & y & e & w & Hr & E & H0); [discriminate|].
    exists (fresh2 1 (XNLMS (1 / 10))), o', ds0, xs0, y, e, w, ws0.
    do 6 (split; [auto using xs0_rows, xs0_noise_free|]).
    split; [simpl; lra|]. split; [exact H0|]. split.
    - intros k _. pose proof (normsq_nonneg (nth k xs0 [])); lra.
    - intros k _ Hp. simpl (o_mu _).
      assert (0 < 2 * (1 / 10) / normsq (nth k xs0 [])) by (apply Rdiv_lt_0_compat; lra). lra.
  Qed.

  Example C15_hypotheses : exists o o' d x y e w ws,
    reachable 2 o /\ o_ext o = XLMF /\ rows_of 2 x /\ length ws = 2%nat /\ noise_free ws d x /\
    run d x o = (o', Ok (y, e, w)) /\ nth 0 e 0 = 3 /\
    0 <= o_mu o * nth 0 e 0 ^ 2 * normsq (nth 0 x []) <= 2.
  Proof.
    destruct (witness KLMF (1 / 10) None None None XLMF eq_refl) as (o' & y & e & w & Hr & E & H0); [discriminate|].
    exists (fresh2 (1 / 10) XLMF), o', ds0, xs0, y, e, w, ws0.
    do 7 (split; [auto using xs0_rows, xs0_noise_free|]).
    rewrite H0; unfold normsq; simpl; lra.
  Qed.

  Example C17_hypotheses : exists o o' d x y e w ws,
    reachable 2 o /\ o_ext o = XLlncosh 3 /\ rows_of 2 x /\ length ws = 2%nat /\ noise_free ws d x /\
    run d x o = (o', Ok (y, e, w)) /\ 0 <= o_mu o /\
    (forall k, (k < length x)%nat -> o_mu o * 3 * normsq (nth k x []) <= 2) /\ nth 0 e 0 = 3.
  Proof.
    destruct (witness KLlncosh (1 / 10) None (Some 3) None (XLlncosh 3) eq_refl) as (o' & y & e & w & Hr & E & H0); [discriminate|].
    exists (fresh2 (1 / 10) (XLlncosh 3)), o', ds0, xs0, y, e, w, ws0.
    do 6 (split; [auto using xs0_rows, xs0_noise_free|]).
    split; [simpl; lra|]. split; [|exact H0].
    intros [|[|k]] Hk; unfold normsq; simpl in *; try lia; lra.
  Qed.

  Example C18_hypotheses : exists o o' d x y e w ws,
    reachable 2 o /\ o_ext o = XGMCC (1 / 2) 2 /\ rows_of 2 x /\ length ws = 2%nat /\ noise_free ws d x /\
    run d x o = (o', Ok (y, e, w)) /\ 0 <= o_mu o /\
    (forall k, (k < length x)%nat -> o_mu o * (1 / 2) * normsq (nth k x []) <= 1) /\ nth 0 e 0 = 3.
  Proof.
    destruct (witness KGMCC 1 None (Some (1 / 2)) (Some 2) (XGMCC (1 / 2) 2) eq_refl) as (o' & y & e & w & Hr & E & H0); [discriminate|].
    exists (fresh2 1 (XGMCC (1 / 2) 2)), o', ds0, xs0, y, e, w, ws0.
    do 6 (split; [auto using xs0_rows, xs0_noise_free|]).
    split; [simpl; lra|]. split; [|exact H0].
    intros [|[|k]] Hk; unfold normsq; simpl in *; try lia; lra.
  Qed.
End Props.
