(** C102: what reordering and repeating the data does (exact real arithmetic). *)
From Coq Require Import Reals Lra Psatz Permutation.
From Verif Require PropsESE.
From Verif Require Import Py Num Numpy Filters Registry Spec StructProofs RunProofs Reach RVec RFilter Steps RMat PropsStability PropsAlgebra
  PropsRun PropsNoise PropsIID PropsNIID PropsRLS PropsRLSRate PropsRLSNoise.
Open Scope R_scope.

(** ** Specification *)
(** how well fixed weights v fit the data *)
Definition misfit (d : rvec) (x : list rvec) (v : rvec) : R := sumn (length x) (fun i => (nth i d 0 - Rdot v (nth i x [])) ^ 2).

(** ** Sums over the samples *)
Lemma sumn_combine (f : rvec -> R -> R) : forall (x : list rvec) (d : rvec), length d = length x ->
  sumn (length x) (fun i => f (nth i x []) (nth i d 0)) = Rsum (map (fun a => f (fst a) (snd a)) (combine x d)).
Proof.
  induction x as [|v x IH]; intros [|a d] H; try discriminate; [reflexivity|].
  cbn [length combine map Rsum fst snd]. rewrite sumn_S_l. cbn [nth]. rewrite IH by (cbn in H; lia). reflexivity.
Qed.
Lemma Rsum_perm l l' : Permutation l l' -> Rsum l = Rsum l'.
Proof. induction 1; cbn [Rsum]; lra. Qed.
Lemma perm_sum (f : rvec -> R -> R) x d x' d' : length d = length x -> length d' = length x' -> Permutation (combine x d) (combine x' d') ->
  sumn (length x) (fun i => f (nth i x []) (nth i d 0)) = sumn (length x') (fun i => f (nth i x' []) (nth i d' 0)).
Proof. intros H H' HP. rewrite !sumn_combine by auto. apply Rsum_perm, Permutation_map. exact HP. Qed.
Lemma misfit_app d1 d2 x1 x2 v : length d1 = length x1 -> misfit (d1 ++ d2) (x1 ++ x2) v = misfit d1 x1 v + misfit d2 x2 v.
Proof.
  intros H. unfold misfit. rewrite app_length, sumn_split. f_equal; apply sumn_ext; intros i Hi.
  - rewrite !app_nth1 by lia. reflexivity.
  - rewrite !app_nth2_plus. rewrite <- H, app_nth2_plus. reflexivity.
Qed.
Lemma misfit_repeat d x v p : length d = length x -> misfit (concat (repeat d p)) (concat (repeat x p)) v = INR p * misfit d x v.
Proof.
  intros H. induction p as [|p IH]; [unfold misfit; cbn; ring|]. cbn [repeat concat]. rewrite misfit_app, IH, S_INR by exact H. ring.
Qed.
Lemma concat_repeat_length {A} (l : list A) p : length (concat (repeat l p)) = (p * length l)%nat.
Proof. induction p as [|p IH]; [reflexivity|]. cbn [repeat concat]. rewrite app_length, IH. reflexivity. Qed.
Lemma misfit_firstn d x v k : (k <= length x)%nat -> length d = length x ->
  sumn k (fun i => (nth i d 0 - Rdot v (nth i x [])) ^ 2) = misfit (firstn k d) (firstn k x) v.
Proof.
  intros Hk H. unfold misfit. rewrite firstn_length, Nat.min_l by lia. apply sumn_ext. intros i Hi. rewrite !nth_firstn by lia. reflexivity.
Qed.

Section S.
  Variable solve : list rvec -> list rvec -> option (list rvec).
  #[local] Hint Extern 0 (Num R) => exact (RNum solve) : typeclass_instances.
  Notation obj := (obj R).

  Lemma cost_one eps w0 d x v : ls_cost 1 eps w0 d x (length x) v = misfit d x v + eps * distsq v w0.
  Proof. unfold ls_cost, misfit. rewrite pow1, Rmult_1_l. f_equal. apply sumn_ext. intros. rewrite pow1. ring. Qed.

  Lemma wrow_last (w : list rvec) wN N : length w = N -> wrow w wN N = wN.
  Proof. intros H. unfold wrow. rewrite app_nth2 by lia. rewrite H, Nat.sub_diag. reflexivity. Qed.

  (** *** C102.  RLS without forgetting: the order of the samples does not matter, neither for the weights nor for the stored matrix *)
  Theorem C102_RLS_order : forall rng (kw : kwargs R) n (o o1 o2 : obj) eps R0 d x d' x' y e w y' e' w',
    rng_ok rng -> sane_kw kw -> kw_n kw = Some (Z.of_nat n) -> new_filter rng KRLS kw = Ok o ->
    o_ext o = XRLS eps R0 -> 0 < eps -> o_mu o = 1 -> rows_of n x -> rows_of n x' ->
    run d x o = (o1, Ok (y, e, w)) -> run d' x' o = (o2, Ok (y', e', w')) ->
    Permutation (combine x d) (combine x' d') ->
    o_w o1 = o_w o2 /\ o_ext o1 = o_ext o2.
  Proof.
    intros rng kw n o o1 o2 eps R0 d x d' x' y e w y' e' w' Hrng Hkw Hn Hnew Ex Heps Hmu Hx Hx' HR HR' HP.
    pose proof (new_filter_wf rng KRLS kw n o Hrng Hkw Hn Hnew) as Hwf.
    destruct (run_lengths solve n o o1 d x y e w Hwf Hx HR) as (Hl & Hne & _ & _ & Hlw & _ & _ & _ & HO & Hw).
    destruct (run_lengths solve n o o2 d' x' y' e' w' Hwf Hx' HR') as (Hl' & Hne' & _ & _ & Hlw' & _ & _ & _ & HO' & Hw').
    assert (Hmu0 : 0 < o_mu o) by lra.
    split.
    - destruct (C21_least_squares solve rng kw n o o1 eps R0 d x y e w Hrng Hkw Hn Hnew Ex Heps Hmu0 Hx HR (length x) (le_n _)) as (L1 & B1).
      destruct (C21_least_squares solve rng kw n o o2 eps R0 d' x' y' e' w' Hrng Hkw Hn Hnew Ex Heps Hmu0 Hx' HR' (length x') (le_n _)) as (L2 & B2).
      rewrite Hmu in B1, B2. rewrite wrow_last in L1, B1 by exact Hlw. rewrite wrow_last in L2, B2 by exact Hlw'.
      destruct (list_eq_dec Req_EM_T (o_w o1) (o_w o2)) as [|Hc]; [assumption|exfalso].
      pose proof (B1 (o_w o2) L2 ltac:(congruence)) as H1. pose proof (B2 (o_w o1) L1 Hc) as H2. rewrite !cost_one in H1, H2.
      assert (E : forall v, misfit d x v = misfit d' x' v) by (intros v; unfold misfit; apply (perm_sum (fun xi di => (di - Rdot v xi) ^ 2)); auto).
      rewrite !E in H1. lra.
    - destruct (new_RLS solve rng kw n o Hnew Hn) as (eps' & E'). rewrite E' in Ex. injection Ex as -> _.
      destruct (rls_states solve n o d x eps Hwf Hx Hl E' Hmu0 Heps (length x) (le_n _)) as (_ & _ & Q1 & E1 & (S1 & _ & A1 & _) & _).
      destruct (rls_states solve n o d' x' eps Hwf Hx' Hl' E' Hmu0 Heps (length x') (le_n _)) as (_ & _ & Q2 & E2 & (S2 & _ & _ & A2) & _).
      assert (X1 : o_ext o1 = XRLS eps Q1).
      { destruct (run_eq n o d x Hwf Hx Hl Hne) as (h & E & _). rewrite E in HR. unfold state_after in E1. rewrite !firstn_all2 in E1 by lia.
        destruct (adapt_all d x o) as (oa & ra). cbn [fst snd] in *. subst ra. injection HR as <- _ _ _. exact E1. }
      assert (X2 : o_ext o2 = XRLS eps Q2).
      { destruct (run_eq n o d' x' Hwf Hx' Hl' Hne') as (h & E & _). rewrite E in HR'. unfold state_after in E2. rewrite !firstn_all2 in E2 by lia.
        destruct (adapt_all d' x' o) as (oa & ra). cbn [fst snd] in *. subst ra. injection HR' as <- _ _ _. exact E2. }
      rewrite X1, X2. f_equal. apply (mv_ext solve n n); auto. intros v Hv.
      assert (Lv : length (mv Q1 v) = n) by (rewrite (mv_len solve); apply S1).
      rewrite <- (A1 v Hv) at 2. rewrite <- (A2 (mv Q1 v) Lv) at 1. f_equal.
      assert (Hr : forall i, (i < length x)%nat -> length (nth i x []) = n) by (intros; apply nth_rows; auto).
      assert (Hr' : forall i, (i < length x')%nat -> length (nth i x' []) = n) by (intros; apply nth_rows; auto).
      apply nth_ext0; [rewrite !(A_len _ _ _ n); auto|]. intros i Hi. rewrite (A_len _ _ _ n) in Hi by auto.
      rewrite !(A_ent _ _ _ n) by auto. apply sumn_ext. intros j Hj. f_equal. unfold ls_gram. rewrite Hmu. f_equal.
      + rewrite (sumn_ext (length x') _ (fun t => nth i (nth t x' []) 0 * nth j (nth t x' []) 0)) by (intros; rewrite pow1; ring).
        rewrite (sumn_ext (length x) _ (fun t => nth i (nth t x []) 0 * nth j (nth t x []) 0)) by (intros; rewrite pow1; ring).
        symmetry. apply (perm_sum (fun xi _ => nth i xi 0 * nth j xi 0) x d x' d'); auto.
      + rewrite !pow1. reflexivity.
  Qed.

  (** Pre-training an RLS filter (mu = 1) for p epochs: the first prediction of the test part is made with the weights that minimise
      misfit + (eps / p) |w - w0|^2 on the training part: more epochs only weaken the pull towards the initial weights *)
  Theorem C102_RLS_epochs : forall rng (kw : kwargs R) n (o o' : obj) eps R0 d x ntrain p k y e w,
    rng_ok rng -> sane_kw kw -> kw_n kw = Some (Z.of_nat n) -> new_filter rng KRLS kw = Ok o ->
    o_ext o = XRLS eps R0 -> 0 < eps -> o_mu o = 1 -> rows_of n x -> length d = length x ->
    slice_position (length d) (ntrunc (nmul (nofnat (length d)) ntrain)) k -> (0 < k < length d)%nat -> (0 < p)%nat ->
    pretrained_run d x ntrain p o = (o', Ok (y, e, w)) ->
    let wp := nth 0 w [] in let dt := firstn k d in let xt := firstn k x in
    length wp = n /\
    (forall v, length v = n -> v <> wp -> misfit dt xt wp + eps / INR p * distsq wp (o_w o) < misfit dt xt v + eps / INR p * distsq v (o_w o)) /\
    (forall v, length v = n -> misfit dt xt wp <= misfit dt xt v + eps / INR p * distsq v (o_w o)).
  Proof.
    intros rng kw n o o' eps R0 d x ntrain p k y e w Hrng Hkw Hn Hnew Ex Heps Hmu Hx Hl Hs Hk Hp HT wp dt xt.
    assert (Hre : reachable n o) by (apply (reach_new n rng KRLS kw); auto).
    destruct (C09_pretrained_run n o d x ntrain p k Hre Hx Hl Hs Hk) as (_ & HE). cbv zeta in HE. rewrite HT in HE. cbn [snd] in HE.
    fold dt xt in HE. set (D := concat (repeat dt p) ++ skipn k d) in *. set (X := concat (repeat xt p) ++ skipn k x) in *.
    destruct (run D X o) as (o2 & [[[y2 e2] w2]|ex]) eqn:HR; [|discriminate]. cbn [snd rmap] in HE. injection HE as _ _ Ew.
    assert (Lt : length dt = k /\ length xt = k) by (unfold dt, xt; rewrite !firstn_length; lia). destruct Lt as (Ld & Lx).
    assert (HxT : rows_of n xt) by (apply firstn_rows; auto).
    assert (HX : rows_of n X).
    { apply Forall_app. split; [|apply skipn_rows; auto]. clear -HxT. induction p as [|p IH]; [constructor|]. cbn [repeat concat]. apply Forall_app. split; auto. }
    pose proof (new_filter_wf rng KRLS kw n o Hrng Hkw Hn Hnew) as Hwf.
    destruct (run_lengths solve n o o2 D X y2 e2 w2 Hwf HX HR) as (HL & Hne & _ & _ & Hlw & _ & _ & _ & HO & Hw).
    assert (LX : length X = (p * k + (length x - k))%nat) by (unfold X; rewrite app_length, concat_repeat_length, skipn_length; lia).
    assert (Hpk : (p * k < length X)%nat) by (rewrite LX; lia).
    destruct (C21_least_squares solve rng kw n o o2 eps R0 D X y2 e2 w2 Hrng Hkw Hn Hnew Ex Heps ltac:(lra) HX HR (p * k) ltac:(lia)) as (L1 & B1).
    assert (E1 : wrow w2 (o_w o2) (p * k) = wp).
    { unfold wp, wrow. rewrite app_nth1 by lia. rewrite Ew. rewrite <- (firstn_skipn (p * k) w2) at 1.
      rewrite app_nth2 by (rewrite firstn_length; lia). rewrite firstn_length, Nat.min_l, Nat.sub_diag by lia. reflexivity. }
    rewrite E1 in *. split; [exact L1|].
    assert (HC : forall v, ls_cost (o_mu o) eps (o_w o) D X (p * k) v = INR p * (misfit dt xt v + eps / INR p * distsq v (o_w o))).
    { intros v. unfold ls_cost. rewrite Hmu, pow1, (sumn_ext (p * k) _ (fun i => (nth i D 0 - Rdot v (nth i X [])) ^ 2)) by (intros; rewrite pow1; ring).
      rewrite misfit_firstn by lia. unfold D, X. rewrite !firstn_app, !concat_repeat_length, Ld, Lx, Nat.sub_diag. cbn [firstn]. rewrite !app_nil_r.
      rewrite !firstn_all2 by (rewrite concat_repeat_length; lia). rewrite misfit_repeat by congruence. field. apply not_0_INR. lia. }
    assert (Hp0 : 0 < INR p) by (apply lt_0_INR; exact Hp).
    assert (H1 : forall v, length v = n -> v <> wp -> misfit dt xt wp + eps / INR p * distsq wp (o_w o) < misfit dt xt v + eps / INR p * distsq v (o_w o)).
    { intros v Hv Hc. pose proof (B1 v Hv Hc) as H. rewrite !HC in H. apply Rmult_lt_reg_l in H; [exact H|exact Hp0]. }
    split; [exact H1|]. intros v Hv. assert (Hq : 0 < eps / INR p) by (apply Rdiv_lt_0_compat; lra).
    pose proof (Rmult_le_pos _ _ (Rlt_le _ _ Hq) (normsq_nonneg (vsub wp (o_w o)))) as Hw1. fold (distsq wp (o_w o)) in Hw1.
    pose proof (Rmult_le_pos _ _ (Rlt_le _ _ Hq) (normsq_nonneg (vsub v (o_w o)))) as Hw2. fold (distsq v (o_w o)) in Hw2.
    destruct (list_eq_dec Req_EM_T v wp) as [->|Hc]; [lra|]. specialize (H1 v Hv Hc). lra.
  Qed.

  (** with forgetting the order matters, for every mu between 0 and 1: one weight, the two samples (1, 0) and (1, 1) *)
  Theorem C102_RLS_forgetting_order : forall rng (kw : kwargs R) (o o1 o2 : obj) eps R0 y e w y' e' w',
    rng_ok rng -> sane_kw kw -> kw_n kw = Some (Z.of_nat 1) -> new_filter rng KRLS kw = Ok o ->
    o_ext o = XRLS eps R0 -> 0 < eps -> 0 < o_mu o < 1 ->
    run [0; 1] [[1]; [1]] o = (o1, Ok (y, e, w)) -> run [1; 0] [[1]; [1]] o = (o2, Ok (y', e', w')) ->
    o_w o1 <> o_w o2.
  Proof.
    intros rng kw o o1 o2 eps R0 y e w y' e' w' Hrng Hkw Hn Hnew Ex Heps Hmu HR HR' Hc.
    pose proof (new_filter_wf rng KRLS kw 1 o Hrng Hkw Hn Hnew) as Hwf.
    assert (Hx : rows_of 1 [[1]; [1]]) by (repeat constructor).
    destruct (run_lengths solve 1 o o1 _ _ y e w Hwf Hx HR) as (_ & _ & _ & _ & Hlw & _).
    destruct (run_lengths solve 1 o o2 _ _ y' e' w' Hwf Hx HR') as (_ & _ & _ & _ & Hlw' & _).
    destruct (C21_least_squares solve rng kw 1 o o1 eps R0 _ _ y e w Hrng Hkw Hn Hnew Ex Heps (proj1 Hmu) Hx HR 2 (le_n _)) as (L1 & B1).
    destruct (C21_least_squares solve rng kw 1 o o2 eps R0 _ _ y' e' w' Hrng Hkw Hn Hnew Ex Heps (proj1 Hmu) Hx HR' 2 (le_n _)) as (L2 & B2).
    rewrite wrow_last in L1, B1 by exact Hlw. rewrite wrow_last in L2, B2 by exact Hlw'. rewrite <- Hc in *. clear Hc.
    destruct Hwf as (Lw0 & _). destruct (o_w o) as [|b [|]]; try discriminate. destruct (o_w o1) as [|a [|]]; try discriminate.
    set (mu := o_mu o) in *. unfold ls_cost, distsq, normsq in B1, B2. cbn in B1, B2.
    (* the derivative of both costs vanishes at a *)
    assert (Hmin : forall p q, 0 < p -> (forall t, t <> a -> 0 < p * (t - a) * (t - a) + q * (t - a)) -> q = 0).
    { intros p q Hp H. destruct (Req_dec q 0) as [|Hq]; [assumption|exfalso]. specialize (H (a - q / (2 * p))).
      assert (Hne : a - q / (2 * p) <> a).
      { intros E. apply Hq. assert (H0 : q / (2 * p) = 0) by lra. apply (f_equal (fun t => t * (2 * p))) in H0. unfold Rdiv in H0.
        rewrite Rmult_assoc, Rinv_l, Rmult_1_r, Rmult_0_l in H0 by lra. exact H0. }
      specialize (H Hne). replace (p * (a - q / (2 * p) - a) * (a - q / (2 * p) - a) + q * (a - q / (2 * p) - a)) with (- (q * q / (4 * p))) in H by (field; lra).
      pose proof (Rle_0_sqr q) as Hs. unfold Rsqr in Hs. assert (0 <= q * q / (4 * p)) by (apply Rmult_le_pos; [exact Hs|left; apply Rinv_0_lt_compat; lra]). lra. }
    set (M := mu * (mu * 1) * eps) in *. assert (HM : 0 < M) by (unfold M; rewrite Rmult_1_r; repeat apply Rmult_lt_0_compat; lra).
    assert (Q1 : 2 * (mu * a + (a - 1) + M * (a - b)) = 0).
    { apply (Hmin (mu + 1 + M)); [lra|]. intros t Ht. specialize (B1 [t] eq_refl ltac:(congruence)). cbn in B1. lra. }
    assert (Q2 : 2 * (mu * (a - 1) + a + M * (a - b)) = 0).
    { apply (Hmin (mu + 1 + M)); [lra|]. intros t Ht. specialize (B2 [t] eq_refl ltac:(congruence)). cbn in B2. lra. }
    lra.
  Qed.

  (** *** LMS and NLMS: exactly when two consecutive samples may be swapped *)
  (** the step a class takes along an input: mu for LMS, mu / (eps + |x|^2) for NLMS *)
  Definition gain (o : obj) (x : rvec) : option R :=
    match o_ext o with
    | XLMS => Some (o_mu o)
    | XNLMS eps => Some (o_mu o / (eps + normsq x))
    | _ => None
    end.
  Definition regular (o : obj) (x : rvec) : Prop := match o_ext o with XNLMS eps => 0 < eps + normsq x | _ => True end.

  Lemma two_steps n (o : obj) x1 x2 d1 d2 g1 g2 : reachable n o -> length x1 = n -> length x2 = n ->
    gain o x1 = Some g1 -> gain o x2 = Some g2 -> regular o x1 -> regular o x2 ->
    let e1 := d1 - Rdot (o_w o) x1 in
    let w1 := vadd (o_w o) (vsc (g1 * e1) x1) in
    o_w (fst (run [d1; d2] [x1; x2] o)) = vadd w1 (vsc (g2 * (d2 - Rdot w1 x2)) x2).
  Proof.
    intros Hr H1 H2 G1 G2 R1 R2 e1 w1. unfold gain, regular in *.
    assert (HF : Forall (fun a : sample => length (fst a) = n) [(x1, d1); (x2, d2)]) by (repeat constructor; auto).
    destruct (o_ext o) as [| | | |eps| | | | | | | | | | |] eqn:Ex; try discriminate.
    - injection G1 as <-. injection G2 as <-. destruct (lms_run solve n o _ Hr Ex HF) as (E & _). exact E.
    - injection G1 as <-. injection G2 as <-.
      assert (HG : Forall (fun a : sample => 0 < power eps a) [(x1, d1); (x2, d2)]) by (repeat constructor; auto).
      destruct (nlms_run solve n o eps _ Hr Ex HF HG) as (E & _). unfold weights_after in E. etransitivity; [exact E|].
      unfold lrun. cbn [map fold_left]. rewrite !unit_step by auto. reflexivity.
  Qed.

  Theorem C102_swap : forall n (o : obj) x1 x2 d1 d2 g1 g2,
    reachable n o -> length x1 = n -> length x2 = n -> gain o x1 = Some g1 -> gain o x2 = Some g2 -> regular o x1 -> regular o x2 ->
    let e1 := d1 - Rdot (o_w o) x1 in let e2 := d2 - Rdot (o_w o) x2 in
    vsub (o_w (fst (run [d1; d2] [x1; x2] o))) (o_w (fst (run [d2; d1] [x2; x1] o))) =
      vsc (g1 * g2 * Rdot x1 x2) (vsub (vsc e2 x1) (vsc e1 x2)) /\
    (o_w (fst (run [d1; d2] [x1; x2] o)) = o_w (fst (run [d2; d1] [x2; x1] o)) <->
      o_mu o = 0 \/ Rdot x1 x2 = 0 \/ vsc e2 x1 = vsc e1 x2).
  Proof.
    intros n o x1 x2 d1 d2 g1 g2 Hr H1 H2 G1 G2 R1 R2 e1 e2.
    rewrite (two_steps n o x1 x2 d1 d2 g1 g2), (two_steps n o x2 x1 d2 d1 g2 g1) by auto. fold e1 e2.
    pose proof (reachable_wf _ _ Hr) as (Lw & _).
    set (w1 := vadd (o_w o) (vsc (g1 * e1) x1)). set (w2 := vadd (o_w o) (vsc (g2 * e2) x2)).
    assert (L1 : length w1 = n) by (apply vadd_length; rewrite ?vsc_length; auto). assert (L2 : length w2 = n) by (apply vadd_length; rewrite ?vsc_length; auto).
    assert (D2 : d2 - Rdot w1 x2 = e2 - g1 * e1 * Rdot x1 x2) by (unfold w1, e2; rewrite Rdot_vadd_l, Rdot_vsc_l by (rewrite ?vsc_length; congruence); ring).
    assert (D1 : d1 - Rdot w2 x1 = e1 - g2 * e2 * Rdot x1 x2) by (unfold w2, e1; rewrite Rdot_vadd_l, Rdot_vsc_l, (Rdot_comm x2 x1) by (rewrite ?vsc_length; congruence); ring).
    rewrite D1, D2.
    set (A := vadd w1 _). set (B := vadd w2 _).
    assert (LA : length A = n) by (apply vadd_length; rewrite ?vsc_length; auto). assert (LB : length B = n) by (apply vadd_length; rewrite ?vsc_length; auto).
    set (q := vsub (vsc e2 x1) (vsc e1 x2)). assert (Lq : length q = n) by (apply vsub_length; rewrite ?vsc_length; auto).
    assert (E : vsub A B = vsc (g1 * g2 * Rdot x1 x2) q).
    { apply nth_ext0; [rewrite vsc_length, (vsub_length _ _ n); auto|]. intros i _.
      rewrite nth_vsub by congruence. unfold A, B, w1, w2, q. rewrite nth_vsc.
      rewrite !nth_vadd by (rewrite ?(vadd_length _ _ n); rewrite ?vsc_length; congruence). rewrite nth_vsub by (rewrite !vsc_length; congruence). rewrite !nth_vsc. ring. }
    split; [exact E|].
    assert (Hg : g1 * g2 = 0 <-> o_mu o = 0).
    { unfold gain, regular in *. destruct (o_ext o) as [| | | |eps| | | | | | | | | | |]; try discriminate; injection G1 as <-; injection G2 as <-.
      - split; [intros H; apply Rmult_integral in H; tauto|intros ->; ring].
      - split; [|intros ->; unfold Rdiv; ring]. intros H. apply Rmult_integral in H.
        destruct H as [H|H]; unfold Rdiv in H; apply Rmult_integral in H; destruct H as [H|H]; auto; exfalso; revert H; apply Rinv_neq_0_compat; lra. }
    assert (Hq : vsc e2 x1 = vsc e1 x2 <-> q = repeat 0 n).
    { split.
      - intros Hq. unfold q. rewrite Hq. apply nth_ext0; [rewrite (vsub_length _ _ n), repeat_length; rewrite ?vsc_length; auto|].
        intros i _. rewrite nth_vsub, nth_repeat by reflexivity. ring.
      - intros Hq. apply nth_ext0; [rewrite !vsc_length; congruence|]. intros i _. assert (Hi : nth i q 0 = 0) by (rewrite Hq, nth_repeat; reflexivity).
        unfold q in Hi. rewrite nth_vsub in Hi by (rewrite !vsc_length; congruence). lra. }
    split.
    - intros HAB. assert (Z : vsc (g1 * g2 * Rdot x1 x2) q = repeat 0 n).
      { rewrite <- E, HAB. apply nth_ext0; [rewrite (vsub_length _ _ n), repeat_length; auto|]. intros i _. rewrite nth_vsub, nth_repeat by reflexivity. ring. }
      destruct (Req_dec (g1 * g2) 0) as [Hz|Hz]; [left; apply Hg; exact Hz|]. destruct (Req_dec (Rdot x1 x2) 0) as [Hd|Hd]; [right; left; exact Hd|].
      right. right. apply Hq. apply nth_ext0; [rewrite repeat_length; exact Lq|]. intros i _. rewrite nth_repeat.
      assert (Hi : nth i (vsc (g1 * g2 * Rdot x1 x2) q) 0 = 0) by (rewrite Z, nth_repeat; reflexivity). rewrite nth_vsc in Hi.
      apply Rmult_integral in Hi. destruct Hi as [Hi|Hi]; [|exact Hi]. apply Rmult_integral in Hi. tauto.
    - intros HD. apply distsq_zero; [congruence|]. unfold distsq. rewrite E, normsq_vsc.
      destruct HD as [HD|[HD|HD]].
      + apply Hg in HD. rewrite HD. ring.
      + rewrite HD. ring.
      + apply Hq in HD. rewrite HD. unfold normsq. rewrite Rdot_zero_l. ring.
  Qed.

  (** *** The hypotheses can be met *)
  Definition kw1 (mu : R) : kwargs R := mkKw (Some 1%Z) (Some mu) (Some (WVec [0])) (Some 1) None None None None None None None false.
  Lemma new_two mu : exists (o : obj) R0, new_filter rngR KRLS (kw55 mu) = Ok o /\ o_mu o = mu /\ o_w o = [0; 0] /\ o_ext o = XRLS 1 R0.
  Proof.
    destruct (new_filter rngR KRLS (kw55 mu)) as [o|] eqn:Eo; revert Eo; unfold new_filter; cbn; rewrite Reqb_1_0; [|discriminate].
    intros [= <-]. do 2 eexists. split; [reflexivity|]. split; [reflexivity|]. split; reflexivity.
  Qed.
  Lemma new_one mu : exists (o : obj) R0, new_filter rngR KRLS (kw1 mu) = Ok o /\ o_mu o = mu /\ o_w o = [0] /\ o_ext o = XRLS 1 R0.
  Proof.
    destruct (new_filter rngR KRLS (kw1 mu)) as [o|] eqn:Eo; revert Eo; unfold new_filter; cbn; rewrite Reqb_1_0; [|discriminate].
    intros [= <-]. do 2 eexists. split; [reflexivity|]. split; [reflexivity|]. split; reflexivity.
  Qed.
  Example C102_hypotheses :
    (exists (o o1 o2 : obj) R0 y e w y' e' w', rng_ok rngR /\ sane_kw (kw55 1) /\ kw_n (kw55 1) = Some (Z.of_nat 2) /\ new_filter rngR KRLS (kw55 1) = Ok o /\
       o_ext o = XRLS 1 R0 /\ o_mu o = 1 /\ rows_of 2 xs0 /\ run ds0 xs0 o = (o1, Ok (y, e, w)) /\ run (rev ds0) (rev xs0) o = (o2, Ok (y', e', w')) /\
       Permutation (combine xs0 ds0) (combine (rev xs0) (rev ds0)) /\ xs0 <> rev xs0 /\
       forall p, exists o3 y3 e3 w3, slice_position (length ds0) (ntrunc (nmul (nofnat (length ds0)) (1 / 2))) 1 /\ pretrained_run ds0 xs0 (1 / 2) p o = (o3, Ok (y3, e3, w3))) /\
    (exists (o o1 o2 : obj) R0 y e w y' e' w', sane_kw (kw1 (1 / 2)) /\ kw_n (kw1 (1 / 2)) = Some (Z.of_nat 1) /\
       new_filter rngR KRLS (kw1 (1 / 2)) = Ok o /\ o_ext o = XRLS 1 R0 /\ o_mu o = 1 / 2 /\
       run [0; 1] [[1]; [1]] o = (o1, Ok (y, e, w)) /\ run [1; 0] [[1]; [1]] o = (o2, Ok (y', e', w'))) /\
    (exists o : obj, reachable 2 o /\ gain o [1; 0] = Some (1 / 2) /\ gain o [1; 1] = Some (1 / 2) /\ regular o [1; 0] /\ regular o [1; 1] /\
       o_w (fst (run [3; 7] [[1; 0]; [1; 1]] o)) <> o_w (fst (run [7; 3] [[1; 1]; [1; 0]] o))).
  Proof.
    split; [|split].
    - destruct (new_two 1) as (o & R0 & Ho & Hm & Hw & HE).
      pose proof (kwE_reachable0 solve KRLS 1 [0; 0] (Some 1) None o Ho) as Hr. cbn [length] in Hr.
      assert (Hs : forall ex, ~ soft_exn o ex).
      { intros ex. unfold soft_exn. rewrite HE, Hm. intros (_ & He). cbn in He. rewrite Reqb_1_0 in He. discriminate. }
      destruct (run_exists solve 2 o ds0 xs0 Hr xs0_rows eq_refl ltac:(discriminate) Hs) as (o1 & y & e & w & E1).
      assert (Hrr : rows_of 2 (rev xs0)) by (repeat constructor).
      destruct (run_exists solve 2 o (rev ds0) (rev xs0) Hr Hrr eq_refl ltac:(discriminate) Hs) as (o2 & y' & e' & w' & E2).
      exists o, o1, o2, R0, y, e, w, y', e', w'. split; [apply rngR_ok|]. split; [split; intros ? H; discriminate H|]. split; [reflexivity|].
      split; [exact Ho|]. split; [exact HE|]. split; [exact Hm|]. split; [apply xs0_rows|]. split; [exact E1|]. split; [exact E2|]. split; [apply perm_swap|].
      split; [intros H; unfold xs0 in H; cbn in H; injection H; lra|].
      intros p.
      assert (Hsl : slice_position (length ds0) (ntrunc (nmul (nofnat (length ds0)) (1 / 2))) 1).
      { unfold slice_position. replace (ntrunc (nmul (nofnat (length ds0)) (1 / 2))) with 1%Z; [reflexivity|].
        change (1%Z = Rtrunc (2 * (1 / 2))). symmetry. apply PropsESE.trunc_floor; lra. }
      destruct (C09_pretrained_run 2 o ds0 xs0 (1 / 2) p 1 Hr xs0_rows eq_refl Hsl ltac:(cbn; lia)) as (_ & HP). cbv zeta in HP.
      set (D := concat _ ++ _) in HP. set (X := concat _ ++ _) in HP.
      destruct (run_exists solve 2 o D X Hr) as (o4 & y4 & e4 & w4 & E4).
      + unfold X. apply Forall_app. split; [|repeat constructor]. clear HP. clear D X. induction p as [|p IH]; [constructor|]. cbn [repeat concat]. apply Forall_app. split; [repeat constructor|exact IH].
      + unfold D, X. rewrite !app_length, !concat_repeat_length. reflexivity.
      + intros H. apply app_eq_nil in H. destruct H as (_ & H). discriminate H.
      + exact Hs.
      + rewrite E4 in HP. cbn [snd rmap] in HP. destruct (pretrained_run ds0 xs0 (1 / 2) p o) as (o3 & r3). cbn [snd] in HP. subst r3.
        do 4 eexists. split; [exact Hsl|reflexivity].
    - destruct (new_one (1 / 2)) as (o & R0 & Ho & Hm & Hw & HE).
      assert (Hr : reachable 1 o) by (apply (reach_new 1 rngR KRLS (kw1 (1 / 2))); [apply rngR_ok|split; intros ? H; discriminate H|reflexivity|exact Ho]).
      assert (Hs : forall ex, ~ soft_exn o ex).
      { intros ex. unfold soft_exn. rewrite HE, Hm. intros (_ & He). cbn in He. unfold Reqb in He. destruct (Req_EM_T (1 / 2) 0); [lra|discriminate]. }
      assert (Hx : rows_of 1 [[1]; [1]]) by (repeat constructor).
      destruct (run_exists solve 1 o [0; 1] [[1]; [1]] Hr Hx eq_refl ltac:(discriminate) Hs) as (o1 & y & e & w & E1).
      destruct (run_exists solve 1 o [1; 0] [[1]; [1]] Hr Hx eq_refl ltac:(discriminate) Hs) as (o2 & y' & e' & w' & E2).
      exists o, o1, o2, R0, y, e, w, y', e', w'. split; [split; intros ? H; discriminate H|]. split; [reflexivity|]. split; [exact Ho|].
      split; [exact HE|]. split; [exact Hm|]. split; [exact E1|exact E2].
    - exists (fresh2 (1 / 2) XLMS). assert (Hr : reachable 2 (fresh2 (1 / 2) XLMS)) by (apply (fresh2_reachable solve (1 / 2) None None None KLMS); reflexivity).
      split; [exact Hr|]. split; [reflexivity|]. split; [reflexivity|]. split; [exact I|]. split; [exact I|].
      destruct (C102_swap 2 (fresh2 (1 / 2) XLMS) [1; 0] [1; 1] 3 7 (1 / 2) (1 / 2) Hr eq_refl eq_refl eq_refl eq_refl I I) as (_ & H).
      intros Hc. apply H in Hc. revert Hc. cbn. intros [Hc|[Hc|Hc]]; [lra|lra|]. injection Hc. lra.
  Qed.
End S.
