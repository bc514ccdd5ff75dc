(** C129: a constant input balances the errors; filters with the constant input 1 alone as running averages and medians (exact real arithmetic). *)
From Coq Require Import QArith Qreals Reals Lra Psatz FunctionalExtensionality.
From Verif Require Import Py Num Numpy Filters Registry Spec StructProofs RunProofs Reach RVec RFilter Steps RMat PropsRun PropsRegistry PropsStability PropsAlgebra PropsAP PropsAPConverge PropsRLS PropsRLSRate PropsRecursion PropsSilence PropsDead.
Open Scope R_scope.

(** ** Specification *)
(** how much an error e at an input of energy s counts in each class *)
Definition influence (c : kind) (kw : kwargs R) (s e : R) : R :=
  match c with
  | KLMS => e | KLMF => e ^ 3 | KSSLMS => Rsgn e
  | KNLMS => e / (par (kw_eps kw) (1 / 1000) + s) | KNLMF => e ^ 3 / (par (kw_eps kw) (1 / 1000) + s) | KNSSLMS => Rsgn e / (par (kw_eps kw) (1 / 1000) + s)
  | KLlncosh => tanh (par (kw_lambd kw) 3 * e)
  | KGMCC => let la := par (kw_lambd kw) (3 / 100) in let al := par (kw_alpha kw) 2 in la * al * exp (- la * Rpowf (Rabs e) al) * Rpowf (Rabs e) (al - 1) * Rsgn e
  | _ => 0
  end.
Definition along_input (c : kind) : bool := match c with KLMS | KLMF | KNLMS | KNLMF | KLlncosh | KGMCC => true | _ => false end.
Definition along_signs (c : kind) : bool := match c with KSSLMS | KNSSLMS => true | _ => false end.
(** step conditions under which a single correction never overshoots when errors are at most span and the input is 1 *)
Definition gentle (c : kind) (kw : kwargs R) (span : R) : Prop :=
  let mu := rate c kw in let eps := par (kw_eps kw) (1 / 1000) in
  match c with
  | KLMS => mu <= 1 | KLMF => mu * span ^ 2 <= 1
  | KNLMS => 0 <= eps /\ mu <= eps + 1 | KNLMF => 0 <= eps /\ mu * span ^ 2 <= eps + 1
  | KLlncosh => 0 <= par (kw_lambd kw) 3 /\ mu * par (kw_lambd kw) 3 <= 1
  | KGMCC => par (kw_alpha kw) 2 = 2 /\ 0 <= par (kw_lambd kw) (3 / 100) /\ mu * (2 * par (kw_lambd kw) (3 / 100)) <= 1
  | _ => False
  end.
(** how many entries satisfy a test *)
Definition count (p : R -> bool) (l : rvec) : nat := length (filter p l).
Definition positive (e : R) : bool := if Rlt_dec 0 e then true else false.
Definition negative (e : R) : bool := if Rlt_dec e 0 then true else false.

Section Pub.
  Variables (kw : kwargs R) (n N : nat) (d : nat -> R) (x : nat -> nat -> R) (y e : nat -> R) (W : nat -> nat -> R).
  Lemma balance_input c (u : nat -> R) v : along_input c = true -> published c kw n N d x y e W -> (forall k, (k < N)%nat -> dotn n u (x k) = v) ->
    rate c kw * v * sumn N (fun k => influence c kw (dotn n (x k) (x k)) (e k)) = dotn n u (W N) - dotn n u (W 0%nat).
  Proof.
    intros Hc HP Hv.
    assert (HM : forall k i, (k < N)%nat -> (i < n)%nat -> W (S k) i = W k i + rate c kw * influence c kw (dotn n (x k) (x k)) (e k) * x k i).
    { unfold published in HP. cbv zeta in HP. intros k i Hk Hi. destruct c; try discriminate Hc; destruct HP as (_ & HM); rewrite HM by assumption; unfold influence; cbv zeta; unfold Rdiv; ring. }
    assert (G : forall m, (m <= N)%nat -> rate c kw * v * sumn m (fun k => influence c kw (dotn n (x k) (x k)) (e k)) = dotn n u (W m) - dotn n u (W 0%nat)); [|apply G; lia].
    induction m as [|m IH]; intros Hm; [cbn [sumn]; ring|]. cbn [sumn]. rewrite Rmult_plus_distr_l, IH by lia.
    replace (dotn n u (W (S m))) with (dotn n u (W m) + rate c kw * influence c kw (dotn n (x m) (x m)) (e m) * dotn n u (x m)); [rewrite Hv by lia; ring|].
    unfold dotn at 1 3. rewrite <- (sumn_scal n (rate c kw * _)), <- sumn_plus. unfold dotn. apply sumn_ext. intros i Hi. rewrite HM by (assumption || lia). unfold dotn. ring.
  Qed.
  Lemma balance_signs c i v : along_signs c = true -> published c kw n N d x y e W -> (i < n)%nat -> (forall k, (k < N)%nat -> x k i = v) ->
    rate c kw * Rsgn v * sumn N (fun k => influence c kw (dotn n (x k) (x k)) (e k)) = W N i - W 0%nat i.
  Proof.
    intros Hc HP Hi Hv.
    assert (HM : forall k, (k < N)%nat -> W (S k) i = W k i + rate c kw * influence c kw (dotn n (x k) (x k)) (e k) * Rsgn v).
    { unfold published in HP. cbv zeta in HP. intros k Hk. destruct c; try discriminate Hc; destruct HP as (_ & HM); rewrite HM, Hv by assumption; unfold influence; cbv zeta; unfold Rdiv; ring. }
    assert (G : forall m, (m <= N)%nat -> rate c kw * Rsgn v * sumn m (fun k => influence c kw (dotn n (x k) (x k)) (e k)) = W m i - W 0%nat i); [|apply G; lia].
    induction m as [|m IH]; intros Hm; [cbn [sumn]; ring|]. cbn [sumn]. rewrite Rmult_plus_distr_l, IH, HM by lia. ring.
  Qed.
End Pub.

Lemma sum_signs e : sumn (length e) (fun k => Rsgn (nth k e 0)) = INR (count positive e) - INR (count negative e).
Proof.
  induction e as [|a e IH]; [cbn; ring|]. cbn [length]. rewrite sumn_S_l. cbn [nth]. rewrite IH. unfold count in *. cbn [filter]. unfold positive at 2, negative at 2, Rsgn.
  repeat destruct Rlt_dec; cbn [length]; rewrite ?S_INR; lra.
Qed.

Lemma gentle_sector c kw span e : 0 < rate c kw -> gentle c kw span -> 0 <= e <= span -> 0 <= rate c kw * influence c kw 1 e <= e.
Proof.
  intros Hr. set (mu := rate c kw) in *. unfold gentle, influence. cbv zeta. fold mu. intros Hg He.
  assert (P3 : mu * span ^ 2 <= 1 -> 0 <= mu * e ^ 3 <= e).
  { intros H. assert (e ^ 2 <= span ^ 2) by nra. assert (mu * e ^ 2 <= 1) by nra. replace (mu * e ^ 3) with (mu * e ^ 2 * e) by ring. assert (0 <= mu * e ^ 2) by nra. split; nra. }
  destruct c; try contradiction.
  - (* GMCC *) destruct Hg as (-> & Hl & Hg). set (la := par (kw_lambd kw) (3 / 100)) in *. rewrite (Rabs_pos_eq e) by lra. replace (2 - 1) with 1 by ring. assert (E1 : Rpowf e 1 * Rsgn e = e).
    { replace 1 with (2 - 1) at 1 by ring. rewrite Rpowf_1 by lra. unfold Rsgn. repeat destruct Rlt_dec; lra. }
    set (E := exp _). assert (HE : 0 < E <= 1). { split; [apply exp_pos|]. unfold E. rewrite <- exp_0. destruct (Req_dec (- la * Rpowf e 2) 0) as [-> |N]; [lra|]. left. apply exp_increasing. pose proof (Rpowf_nonneg e 2). nra. }
    replace (mu * (la * 2 * E * Rpowf e 1 * Rsgn e)) with (mu * (2 * la) * E * (Rpowf e 1 * Rsgn e)) by ring. rewrite E1.
    assert (0 <= mu * (2 * la)) by nra. assert (0 <= mu * (2 * la) * E <= 1) by nra. nra.
  - (* Llncosh *) destruct Hg as (Hl & Hg). set (la := par (kw_lambd kw) 3) in *. assert (Q : 0 <= la * e) by nra. pose proof (tanh_pos _ Q). pose proof (tanh_le _ Q). split; [nra|]. assert (mu * tanh (la * e) <= mu * (la * e)) by nra. nra.
  - exact (P3 Hg).
  - nra.
  - destruct Hg as (Hp & Hg). set (eps := par (kw_eps kw) (1 / 1000)) in *. assert (e ^ 2 <= span ^ 2) by nra. assert (mu * e ^ 2 <= eps + 1) by nra.
    replace (mu * (e ^ 3 / (eps + 1))) with (mu * e ^ 2 / (eps + 1) * e) by (field; lra). assert (0 <= mu * e ^ 2 / (eps + 1) <= 1) by (split; [apply Rmult_le_pos; [nra|left; apply Rinv_0_lt_compat; lra]|apply Rmult_le_reg_r with (eps + 1); [lra|]; unfold Rdiv; rewrite Rmult_assoc, Rinv_l by lra; lra]). nra.
  - destruct Hg as (Hp & Hg). set (eps := par (kw_eps kw) (1 / 1000)) in *.
    replace (mu * (e / (eps + 1))) with (mu / (eps + 1) * e) by (field; lra). assert (0 <= mu / (eps + 1) <= 1) by (split; [apply Rmult_le_pos; [lra|left; apply Rinv_0_lt_compat; lra]|apply Rmult_le_reg_r with (eps + 1); [lra|]; unfold Rdiv; rewrite Rmult_assoc, Rinv_l by lra; lra]). nra.
Qed.
Lemma sgn_opp a : Rsgn (- a) = - Rsgn a.
Proof. unfold Rsgn. repeat destruct Rlt_dec; lra. Qed.
Lemma influence_odd c kw s e : along_input c = true -> influence c kw s (- e) = - influence c kw s e.
Proof.
  intros Hc. destruct c; try discriminate Hc; unfold influence; cbv zeta.
  - rewrite Rabs_Ropp, sgn_opp. ring.
  - rewrite <- tanh_opp. f_equal. ring.
  - ring.
  - ring.
  - unfold Rdiv. ring.
  - unfold Rdiv. ring.
Qed.

Section Program.
  Variable solve : list rvec -> list rvec -> option (list rvec).
  #[local] Hint Extern 0 (Num R) => exact (RNum solve) : typeclass_instances.
  Notation obj := (obj R).

  (** *** C129: if the combination u of the inputs is constant, the errors balance *)
  Theorem C129_balance : forall rng c (kw : kwargs R) n (o o' : obj) d x y e w u v,
    along_input c = true -> rng_ok rng -> sane_kw kw -> kw_n kw = Some (Z.of_nat n) -> new_filter rng c kw = Ok o -> rows_of n x -> length u = n ->
    (forall row, In row x -> Rdot u row = v) -> run d x o = (o', Ok (y, e, w)) ->
    rate c kw * v * sumn (length x) (fun k => influence c kw (normsq (nth k x [])) (nth k e 0)) = Rdot u (o_w o') - Rdot u (o_w o).
  Proof.
    intros rng c kw n o o' d x y e w u v Hc Hrng Hkw Hn Ho Hx Lu Hv HR.
    pose proof (new_filter_wf rng c kw n o Hrng Hkw Hn Ho) as W1. pose proof W1 as (Lw & _).
    destruct (C65_run_follows_the_recursion solve rng c kw n o o' d x y e w Hrng Hkw Hn Ho ltac:(intros ->; discriminate Hc) ltac:(intros ->; discriminate Hc) Hx HR) as (S1 & P).
    destruct (run_lengths solve n o o' d x y e w W1 Hx HR) as (_ & _ & _ & _ & Llw & _).
    pose proof (rows_len solve n o o' _ _ y e w (length x) W1 Hx HR (le_n _)) as LN. assert (EN : nth (length x) (w ++ [o_w o']) [] = o_w o') by (rewrite app_nth2 by lia; rewrite Llw, Nat.sub_diag; reflexivity). rewrite EN in LN.
    pose proof (balance_input kw n (length x) _ _ _ _ _ c (fun i => nth i u 0) v Hc P) as B. cbv beta in B.
    rewrite (Rdot_sumn n u (o_w o')), (Rdot_sumn n u (o_w o)) by assumption. rewrite EN, S1 in B. unfold dotn in B. rewrite <- B.
    - f_equal. apply sumn_ext. intros k Hk. unfold normsq. rewrite (Rdot_sumn n) by (apply (nth_rows _ _ _ Hx Hk)). reflexivity.
    - intros k Hk. rewrite <- (Hv (nth k x []) (nth_In _ _ Hk)). rewrite (Rdot_sumn n) by (assumption || apply (nth_rows _ _ _ Hx Hk)). reflexivity.
  Qed.
  Theorem C129_balance_signs : forall rng c (kw : kwargs R) n (o o' : obj) d x y e w i v,
    along_signs c = true -> rng_ok rng -> sane_kw kw -> kw_n kw = Some (Z.of_nat n) -> new_filter rng c kw = Ok o -> rows_of n x -> (i < n)%nat ->
    (forall row, In row x -> nth i row 0 = v) -> run d x o = (o', Ok (y, e, w)) ->
    rate c kw * Rsgn v * sumn (length x) (fun k => influence c kw (normsq (nth k x [])) (nth k e 0)) = nth i (o_w o') 0 - nth i (o_w o) 0.
  Proof.
    intros rng c kw n o o' d x y e w i v Hc Hrng Hkw Hn Ho Hx Hi Hv HR.
    pose proof (new_filter_wf rng c kw n o Hrng Hkw Hn Ho) as W1.
    destruct (C65_run_follows_the_recursion solve rng c kw n o o' d x y e w Hrng Hkw Hn Ho ltac:(intros ->; discriminate Hc) ltac:(intros ->; discriminate Hc) Hx HR) as (S1 & P).
    destruct (run_lengths solve n o o' d x y e w W1 Hx HR) as (_ & _ & _ & _ & Llw & _).
    assert (EN : nth (length x) (w ++ [o_w o']) [] = o_w o') by (rewrite app_nth2 by lia; rewrite Llw, Nat.sub_diag; reflexivity).
    pose proof (balance_signs kw n (length x) _ _ _ _ _ c i v Hc P Hi) as B. cbv beta in B. rewrite EN, S1 in B. rewrite <- B.
    - f_equal. apply sumn_ext. intros k Hk. unfold normsq. rewrite (Rdot_sumn n) by (apply (nth_rows _ _ _ Hx Hk)). reflexivity.
    - intros k Hk. apply Hv, nth_In. exact Hk.
  Qed.
  (** LMS: the mean error is the change of the weight over mu v N; SSLMS: the positive and the negative errors are equally many, up to that change *)
  Theorem C129_mean_error : forall rng (kw : kwargs R) n (o o' : obj) mu d x y e w i v,
    rng_ok rng -> sane_kw kw -> kw_n kw = Some (Z.of_nat n) -> kw_mu kw = Some mu -> mu <> 0 -> v <> 0 -> (i < n)%nat -> rows_of n x -> (forall row, In row x -> nth i row 0 = v) ->
    (new_filter rng KLMS kw = Ok o -> run d x o = (o', Ok (y, e, w)) ->
       sumn (length x) (fun k => nth k e 0) / INR (length x) = (nth i (o_w o') 0 - nth i (o_w o) 0) / (mu * v * INR (length x))) /\
    (new_filter rng KSSLMS kw = Ok o -> run d x o = (o', Ok (y, e, w)) ->
       INR (count positive e) - INR (count negative e) = (nth i (o_w o') 0 - nth i (o_w o) 0) / (mu * Rsgn v)).
  Proof.
    intros rng kw n o o' mu d x y e w i v Hrng Hkw Hn Hmu Hm0 Hv0 Hi Hx Hv. split; intros Ho HR.
    - pose proof (new_filter_wf rng KLMS kw n o Hrng Hkw Hn Ho) as W1. pose proof W1 as (Lw & _).
      destruct (C65_run_follows_the_recursion solve rng KLMS kw n o o' d x y e w Hrng Hkw Hn Ho ltac:(discriminate) ltac:(discriminate) Hx HR) as (S1 & P).
      destruct (run_lengths solve n o o' d x y e w W1 Hx HR) as (_ & Hne & _ & _ & Llw & _).
      assert (EN : nth (length x) (w ++ [o_w o']) [] = o_w o') by (rewrite app_nth2 by lia; rewrite Llw, Nat.sub_diag; reflexivity).
      pose proof (balance_input kw n (length x) _ _ _ _ _ KLMS (fun j => if Nat.eqb i j then 1 else 0) v eq_refl P) as B. cbv beta in B. unfold dotn in B. rewrite !sumn_delta in B by exact Hi. rewrite EN, S1 in B.
      rewrite <- B by (intros k Hk; rewrite sumn_delta by exact Hi; apply Hv, nth_In; exact Hk).
      cbn [rate influence]. rewrite Hmu. cbn [par]. assert (HN : INR (length x) <> 0) by (apply not_0_INR; destruct x; [congruence|discriminate]). field. auto.
    - pose proof (new_filter_wf rng KSSLMS kw n o Hrng Hkw Hn Ho) as W1. destruct (run_lengths solve n o o' d x y e w W1 Hx HR) as (_ & _ & _ & Le & _).
      pose proof (C129_balance_signs rng KSSLMS kw n o o' d x y e w i v eq_refl Hrng Hkw Hn Ho Hx Hi Hv HR) as B. rewrite <- B. cbn [rate influence]. rewrite Hmu. cbn [par]. rewrite <- Le, sum_signs.
      assert (Rsgn v <> 0) by (unfold Rsgn; repeat destruct Rlt_dec; lra). field. auto.
  Qed.

  (** *** RLS: the residuals of the current weights, discounted, balance up to the regularisation; u = any combination of the inputs *)
  Theorem C129_RLS : forall rng (kw : kwargs R) n (o o' : obj) eps R0 d x y e w u v,
    rng_ok rng -> sane_kw kw -> kw_n kw = Some (Z.of_nat n) -> new_filter rng KRLS kw = Ok o -> o_ext o = XRLS eps R0 -> 0 < eps -> 0 < o_mu o ->
    rows_of n x -> length u = n -> (forall row, In row x -> Rdot u row = v) -> run d x o = (o', Ok (y, e, w)) ->
    v * sumn (length x) (fun i => o_mu o ^ (length x - 1 - i) * (nth i d 0 - Rdot (o_w o') (nth i x []))) = o_mu o ^ length x * eps * (Rdot u (o_w o') - Rdot u (o_w o)).
  Proof.
    intros rng kw n o o' eps R0 d x y e w u v Hrng Hkw Hn Ho HE Heps Hmu Hx Lu Hv HR.
    pose proof (new_filter_wf rng KRLS kw n o Hrng Hkw Hn Ho) as W1. pose proof W1 as (Lw & _).
    destruct (run_lengths solve n o o' d x y e w W1 Hx HR) as (_ & Hne & _ & _ & Llw & _).
    assert (EN : wrow w (o_w o') (length x) = o_w o') by (unfold wrow; rewrite app_nth2 by lia; rewrite Llw, Nat.sub_diag; reflexivity).
    destruct (C21_least_squares solve rng kw n o o' eps R0 d x y e w Hrng Hkw Hn Ho HE Heps Hmu Hx HR (length x) (le_n _)) as (LN & HB). rewrite EN in LN, HB.
    set (wN := o_w o') in *. set (w0 := o_w o) in *. set (mu := o_mu o) in *. set (N := length x) in *.
    set (A := sumn N (fun i => mu ^ (N - 1 - i) * v ^ 2) + mu ^ N * eps * normsq u).
    set (B := sumn N (fun i => mu ^ (N - 1 - i) * (nth i d 0 - Rdot wN (nth i x [])))).
    set (D := Rdot u wN - Rdot u w0).
    assert (HC : forall t, ls_cost mu eps w0 d x N (vadd wN (vsc t u)) = ls_cost mu eps w0 d x N wN + 2 * t * (mu ^ N * eps * D - v * B) + t ^ 2 * A).
    { intros t. assert (Lt : length (vsc t u) = n) by (rewrite vsc_length; exact Lu). assert (La : length (vadd wN (vsc t u)) = n) by (apply vadd_length; assumption). unfold ls_cost, A, B.
      assert (E1 : distsq (vadd wN (vsc t u)) w0 = distsq wN w0 + 2 * t * D + t ^ 2 * normsq u).
      { unfold distsq, normsq, D. rewrite !(Rdot_sumn n) by (try apply vsub_length; assumption).
        rewrite <- sumn_minus. rewrite <- !sumn_scal, <- !sumn_plus. apply sumn_ext. intros i Hi.
        rewrite !nth_vsub, nth_vadd, nth_vsc by congruence. ring. }
      rewrite E1.
      assert (E2 : sumn N (fun i => mu ^ (N - 1 - i) * (nth i d 0 - Rdot (vadd wN (vsc t u)) (nth i x [])) ^ 2) =
        sumn N (fun i => mu ^ (N - 1 - i) * (nth i d 0 - Rdot wN (nth i x [])) ^ 2) + (-2 * t * v) * sumn N (fun i => mu ^ (N - 1 - i) * (nth i d 0 - Rdot wN (nth i x []))) + t ^ 2 * sumn N (fun i => mu ^ (N - 1 - i) * v ^ 2)).
      { rewrite <- !sumn_scal, <- !sumn_plus. apply sumn_ext. intros i Hi. pose proof (nth_rows _ _ _ Hx Hi) as Lr. rewrite Rdot_vadd_l by congruence. rewrite Rdot_vsc_l, (Hv _ (nth_In _ _ Hi)). ring. }
      rewrite E2. ring. }
    set (b := mu ^ N * eps * D - v * B) in *. enough (b = 0) by (unfold b in *; lra).
    destruct (Req_dec b 0) as [Eb|Nb]; [exact Eb|exfalso].
    assert (HT : forall t, vadd wN (vsc t u) <> wN -> 0 < 2 * t * b + t ^ 2 * A).
    { intros t Ht. specialize (HB (vadd wN (vsc t u)) ltac:(apply vadd_length; [exact LN|rewrite vsc_length; exact Lu]) Ht). rewrite HC in HB. fold b in HB. lra. }
    assert (HT' : forall t, 0 <= 2 * t * b + t ^ 2 * A).
    { intros t. destruct (list_eq_dec Req_EM_T (vadd wN (vsc t u)) wN) as [E|NE]; [|specialize (HT t NE); lra]. pose proof (HC t) as Q. rewrite E in Q. lra. }
    assert (HA : 0 <= A) by (pose proof (HT' 1); pose proof (HT' (-1)); lra).
    destruct (Req_dec A 0) as [EA|NA].
    - rewrite EA in HT'. pose proof (HT' 1). pose proof (HT' (-1)). lra.
    - specialize (HT' (- b / A)). replace (2 * (- b / A) * b + (- b / A) ^ 2 * A) with (- (b * b / A)) in HT' by (field; exact NA). assert (0 < b * b / A) by (apply Rdiv_lt_0_compat; nra). lra.
  Qed.

  (** *** a filter whose only input is the constant 1 *)
  Lemma level_run rng c (kw : kwargs R) (o o' : obj) N d y e w :
    along_input c = true \/ along_signs c = true -> rng_ok rng -> sane_kw kw -> kw_n kw = Some 1%Z -> new_filter rng c kw = Ok o ->
    run d (repeat [1] N) o = (o', Ok (y, e, w)) ->
    let W k := nth 0 (nth k (w ++ [o_w o']) []) 0 in
    length d = N /\ length e = N /\ length w = N /\ W 0%nat = nth 0 (o_w o) 0 /\ W N = nth 0 (o_w o') 0 /\
    (forall k, (k < N)%nat -> nth k y 0 = W k /\ nth k e 0 = nth k d 0 - W k /\ W (S k) = W k + rate c kw * influence c kw 1 (nth k e 0)) /\
    (forall k, (k <= N)%nat -> length (nth k (w ++ [o_w o']) []) = 1%nat).
  Proof.
    intros Hc Hrng Hkw Hn Ho HR W. set (x := repeat [1] N) in *.
    assert (Lx : length x = N) by apply repeat_length.
    assert (Hx : rows_of 1 x) by (apply Forall_forall; intros r Hr; apply repeat_spec in Hr; subst r; reflexivity).
    assert (Hn1 : kw_n kw = Some (Z.of_nat 1)) by exact Hn.
    pose proof (new_filter_wf rng c kw 1 o Hrng Hkw Hn1 Ho) as W1.
    destruct (C65_run_follows_the_recursion solve rng c kw 1 o o' d x y e w Hrng Hkw Hn1 Ho ltac:(destruct Hc; intros ->; discriminate) ltac:(destruct Hc; intros ->; discriminate) Hx HR) as (S1 & P).
    destruct (run_lengths solve 1 o o' d x y e w W1 Hx HR) as (Ld & _ & _ & Le & Llw & _). rewrite Lx in *.
    assert (EN : nth N (w ++ [o_w o']) [] = o_w o') by (rewrite app_nth2 by lia; rewrite Llw, Nat.sub_diag; reflexivity).
    split; [exact Ld|]. split; [exact Le|]. split; [exact Llw|]. split; [unfold W; rewrite S1; reflexivity|]. split; [unfold W; rewrite EN; reflexivity|].
    assert (EX : forall k, (k < N)%nat -> nth k x [] = [1]).
    { intros k Hk. assert (I : In (nth k x []) x) by (apply nth_In; lia). apply repeat_spec in I. exact I. }
    split.
    - assert (Q : forall k, (k < N)%nat -> dotn 1 (fun i => nth i (nth k x []) 0) (fun i => nth i (nth k x []) 0) = 1) by (intros k Hk; rewrite EX by exact Hk; unfold dotn; cbn [sumn nth]; ring).
      intros k Hk. unfold published in P. cbv zeta in P.
      assert (B : nth k y 0 = W k /\ nth k e 0 = nth k d 0 - nth k y 0).
      { assert (P' : (forall k, (k < N)%nat -> nth k e 0 = nth k d 0 - nth k y 0) /\ (forall k, (k < N)%nat -> nth k y 0 = dotn 1 (fun i => nth i (nth k (w ++ [o_w o']) []) 0) (fun i => nth i (nth k x []) 0)))
          by (destruct Hc as [Hc|Hc]; destruct c; try discriminate Hc; exact (proj1 P)).
        destruct P' as (A1 & A2). split; [|apply A1; exact Hk]. rewrite A2, EX by exact Hk. unfold dotn. cbn [sumn nth]. unfold W. ring. }
      destruct B as (B1 & B2). split; [exact B1|]. split; [rewrite B2, B1; reflexivity|].
      destruct Hc as [Hc|Hc]; destruct c; try discriminate Hc; destruct P as (_ & HM); unfold W; rewrite HM, ?Q by (exact Hk || lia); rewrite EX by exact Hk; cbn [nth]; unfold influence; cbv zeta;
        try (assert (S1' : Rsgn 1 = 1) by (unfold Rsgn; repeat destruct Rlt_dec; lra); rewrite S1'); unfold Rdiv; ring.
    - intros k Hk. apply (rows_len solve 1 o o' d x y e w k W1 Hx HR). lia.
  Qed.

  Theorem C129_level : forall rng c (kw : kwargs R) (o o' : obj) N d y e w lo hi,
    along_input c = true -> rng_ok rng -> sane_kw kw -> kw_n kw = Some 1%Z -> new_filter rng c kw = Ok o -> 0 < rate c kw -> gentle c kw (hi - lo) ->
    lo <= nth 0 (o_w o) 0 <= hi -> (forall t, In t d -> lo <= t <= hi) -> run d (repeat [1] N) o = (o', Ok (y, e, w)) ->
    (forall k, (k < N)%nat -> lo <= nth k y 0 <= hi) /\ lo <= nth 0 (o_w o') 0 <= hi /\
    Rabs (sumn N (fun k => influence c kw 1 (nth k e 0))) <= (hi - lo) / rate c kw.
  Proof.
    intros rng c kw o o' N d y e w lo hi Hc Hrng Hkw Hn Ho Hr Hg Hw0 Hd HR.
    destruct (level_run rng c kw o o' N d y e w (or_introl Hc) Hrng Hkw Hn Ho HR) as (Ld & _ & _ & E0 & EN & HS & _). set (W := fun k => nth 0 (nth k (w ++ [o_w o']) []) 0) in *. cbv beta zeta in *.
    assert (IN : forall k, (k <= N)%nat -> lo <= W k <= hi).
    { induction k as [|k IH]; intros Hk; [unfold W; rewrite E0; exact Hw0|]. specialize (IH ltac:(lia)). destruct (HS k ltac:(lia)) as (_ & He & HW). fold (W k) (W (S k)) in *. rewrite HW, He.
      assert (T : lo <= nth k d 0 <= hi) by (apply Hd, nth_In; lia). set (t := nth k d 0) in *. destruct (Rle_dec 0 (t - W k)) as [Pz|Nz].
      - pose proof (gentle_sector c kw (hi - lo) (t - W k) Hr Hg ltac:(lra)). lra.
      - pose proof (gentle_sector c kw (hi - lo) (- (t - W k)) Hr Hg ltac:(lra)) as Q. rewrite influence_odd in Q by exact Hc. lra. }
    split; [intros k Hk; destruct (HS k Hk) as (-> & _); apply IN; lia|]. split; [rewrite <- EN; apply IN; lia|].
    assert (SUM : forall m, (m <= N)%nat -> rate c kw * sumn m (fun k => influence c kw 1 (nth k e 0)) = W m - W 0%nat).
    { induction m as [|m IH]; intros Hm; [cbn [sumn]; ring|]. cbn [sumn]. rewrite Rmult_plus_distr_l, IH by lia. destruct (HS m ltac:(lia)) as (_ & _ & HW). fold (W m) (W (S m)) in HW. rewrite HW. ring. }
    specialize (SUM N (le_n _)). pose proof (IN N (le_n _)). pose proof (IN 0%nat ltac:(lia)). set (s := sumn N _) in *.
    apply Rmult_le_reg_l with (rate c kw); [exact Hr|]. replace (rate c kw * ((hi - lo) / rate c kw)) with (hi - lo) by (field; lra).
    rewrite <- (Rabs_pos_eq (rate c kw)) at 1 by lra. rewrite <- Rabs_mult, SUM. apply Rabs_le. lra.
  Qed.

  (** SSLMS and NSSLMS with the only input 1 follow a median: however long the run, the numbers of targets above and below the
      prediction differ by a constant at most *)
  Theorem C129_median : forall rng c (kw : kwargs R) (o o' : obj) N d y e w lo hi,
    along_signs c = true -> rng_ok rng -> sane_kw kw -> kw_n kw = Some 1%Z -> new_filter rng c kw = Ok o ->
    let q := match c with KNSSLMS => rate c kw / (par (kw_eps kw) (1 / 1000) + 1) | _ => rate c kw end in 0 < q ->
    lo <= nth 0 (o_w o) 0 <= hi -> (forall t, In t d -> lo <= t <= hi) -> run d (repeat [1] N) o = (o', Ok (y, e, w)) ->
    (forall k, (k < N)%nat -> lo - q <= nth k y 0 <= hi + q) /\
    Rabs (INR (count positive e) - INR (count negative e)) <= (hi - lo) / q + 1.
  Proof.
    intros rng c kw o o' N d y e w lo hi Hc Hrng Hkw Hn Ho q Hq Hw0 Hd HR.
    destruct (level_run rng c kw o o' N d y e w (or_intror Hc) Hrng Hkw Hn Ho HR) as (Ld & Le & _ & E0 & EN & HS & _). set (W := fun k => nth 0 (nth k (w ++ [o_w o']) []) 0) in *. cbv beta zeta in *.
    assert (HQ : forall e, rate c kw * influence c kw 1 e = q * Rsgn e) by (intros e0; unfold q; destruct c; try discriminate Hc; unfold influence, Rdiv; ring).
    assert (IN : forall k, (k <= N)%nat -> lo - q <= W k <= hi + q).
    { induction k as [|k IH]; intros Hk; [unfold W; rewrite E0; lra|]. specialize (IH ltac:(lia)). destruct (HS k ltac:(lia)) as (_ & He & HW). fold (W k) (W (S k)) in *. rewrite HW, HQ, He.
      assert (T : lo <= nth k d 0 <= hi) by (apply Hd, nth_In; lia). set (t := nth k d 0) in *. unfold Rsgn. repeat destruct Rlt_dec; lra. }
    split; [intros k Hk; destruct (HS k Hk) as (-> & _); apply IN; lia|].
    assert (SUM : forall m, (m <= N)%nat -> q * sumn m (fun k => Rsgn (nth k e 0)) = W m - W 0%nat).
    { induction m as [|m IH]; intros Hm; [cbn [sumn]; ring|]. cbn [sumn]. rewrite Rmult_plus_distr_l, IH by lia. destruct (HS m ltac:(lia)) as (_ & _ & HW). fold (W m) (W (S m)) in HW. rewrite HW, HQ. ring. }
    specialize (SUM N (le_n _)). rewrite <- Le, sum_signs, Le in SUM. pose proof (IN N (le_n _)). assert (W 0%nat = nth 0 (o_w o) 0) by exact E0. set (s := INR _ - INR _) in *.
    apply Rmult_le_reg_l with q; [exact Hq|]. replace (q * ((hi - lo) / q + 1)) with (hi - lo + q) by (field; lra).
    rewrite <- (Rabs_pos_eq q) at 1 by lra. rewrite <- Rabs_mult, SUM. apply Rabs_le. lra.
  Qed.
End Program.

(** ** The hypotheses can be met *)
Section Ok.
  #[local] Hint Extern 0 (Num R) => exact (RNum rsolve) : typeclass_instances.
  Notation obj := (obj R).
  Definition level_kw (c : kind) : kwargs R :=
    mkKw (Some 1%Z) (Some (1 / 2)) (Some (WVec [1 / 2])) None None None (match c with KLlncosh | KGMCC => Some (1 / 10) | _ => None end) None None None None false.
  Example C129_hypotheses_level : forall c, along_input c = true \/ along_signs c = true ->
    rng_ok (T := R) zrng /\ sane_kw (level_kw c) /\ 0 < rate c (level_kw c) /\ (along_input c = true -> gentle c (level_kw c) (1 - 0)) /\
    (forall t, In t [0; 1; 1] -> 0 <= t <= 1) /\
    exists o o' : obj, exists y e w, new_filter zrng c (level_kw c) = Ok o /\ 0 <= nth 0 (o_w o) 0 <= 1 /\ run [0; 1; 1] (repeat [1] 3) o = (o', Ok (y, e, w)).
  Proof.
    intros c Hc.
    split; [intros k; apply repeat_length|]. split; [split; discriminate|].
    split; [destruct Hc as [Hc|Hc]; destruct c; try discriminate Hc; cbn; lra|].
    split; [intros Hi; destruct c; try discriminate Hi; cbn; lra|].
    split; [intros t [<-|[<-|[<-|[]]]]; lra|].
    assert (Ho : exists o : obj, new_filter zrng c (level_kw c) = Ok o /\ o_w o = [1 / 2]) by (destruct Hc as [Hc|Hc]; destruct c; try discriminate Hc; eexists; split; reflexivity).
    destruct Ho as (o & Ho & Ew). exists o.
    destruct (wide_runs c (level_kw c) o 1 [0; 1; 1] (repeat [1] 3)) as (_ & o' & y & e & w & E); auto; try (destruct Hc as [Hc|Hc]; destruct c; try discriminate Hc; reflexivity); [repeat constructor|discriminate|].
    exists o', y, e, w. split; [exact Ho|]. split; [rewrite Ew; cbn [nth]; lra|exact E].
  Qed.
  (** rows [1; 2], [1; 4]: the first input is constant *)
  Example C129_hypotheses : forall c, let x : list rvec := [[1; 2]; [1; 4]] in
    rng_ok (T := R) zrng /\ sane_kw (rec_kw c) /\ rows_of 2 x /\ (forall row, In row x -> Rdot [1; 0] row = 1) /\ (forall row, In row x -> nth 0 row 0 = 1) /\
    exists o o' : obj, exists y e w, new_filter zrng c (rec_kw c) = Ok o /\ run [1; 2] x o = (o', Ok (y, e, w)) /\
      (c = KRLS -> exists R0, o_ext o = XRLS (Q2R (1 # 1000)) R0 /\ 0 < Q2R (1 # 1000) /\ 0 < o_mu o).
  Proof.
    intros c x. destruct (rec_new c 0) as (o & _ & Ho & _).
    destruct (wide_runs c (rec_kw c) o 2 [1; 2] x) as (Hs & o' & y & e & w & E); auto; [repeat constructor|discriminate|].
    split; [intros k; apply repeat_length|]. split; [exact Hs|]. split; [repeat constructor|].
    split; [intros row [<-|[<-|[]]]; cbn; lra|]. split; [intros row [<-|[<-|[]]]; reflexivity|].
    exists o, o', y, e, w. split; [exact Ho|]. split; [exact E|].
    intros ->. destruct (new_filter_rate rsolve zrng KRLS (rec_kw KRLS) 2 o eq_refl Ho) as (Hmu & _ & Hext). cbn [init_ext] in Hext.
    match type of Hext with (if ?b then _ else _) = _ => destruct b; [discriminate Hext|] end. injection Hext as Hext. rewrite <- Hext. eexists. split; [reflexivity|].
    split; [unfold Q2R; cbn; lra|]. rewrite Hmu. cbn. lra.
  Qed.
End Ok.

