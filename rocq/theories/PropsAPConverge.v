(** C58: the affine projection filter on endless data (exact real arithmetic). *)
From Coq Require Import Reals Lra Psatz.
From Verif Require Import Py Num Numpy Filters Registry Spec StructProofs RunProofs Reach RVec RFilter Steps RMat
  PropsRun PropsStability PropsAlgebra PropsAPMem PropsAP PropsNoise PropsConverge.
Open Scope R_scope.

(** ** Vector sequences with vanishing steps *)
Section V.
  Variable n : nat.
  Variables (xx : nat -> rvec) (ws : rvec) (W P : nat -> rvec).
  Hypothesis Lx : forall k, length (xx k) = n.
  Hypothesis Lws : length ws = n.
  Hypothesis LW : forall k, length (W k) = n.
  Hypothesis LP : forall k, length (P k) = n.
  Hypothesis Hstep : forall k, W (S k) = vadd (W k) (P k).
  Let e k := Rdot ws (xx k) - Rdot (W k) (xx k).

  Lemma steps_vanish_drift i : Un_cv (fun k => normsq (P k)) 0 -> Un_cv (fun k => normsq (vsub (W (k + i)%nat) (W k))) 0.
  Proof.
    intros HP. induction i as [|i IH].
    - apply (cv_squeeze _ (fun k => 0 * normsq (P k))); [|apply cv_scal, HP]. intros k. rewrite Nat.add_0_r.
      rewrite normsq_vsub by reflexivity. fold (normsq (W k)). unfold normsq. lra.
    - apply (cv_squeeze _ (fun k => 2 * normsq (vsub (W (k + i)%nat) (W k)) + 2 * normsq (P (k + i)%nat))).
      2:{ rewrite <- (Rplus_0_r 0). apply CV_plus; apply cv_scal; [exact IH|]. apply (cv_shift (fun k => normsq (P k))), HP. }
      intros k. split; [apply normsq_nonneg|]. rewrite Nat.add_succ_r, Hstep.
      set (u := vsub (W (k + i)%nat) (W k)). set (v := P (k + i)%nat).
      assert (Lu : length u = n) by (apply vsub_length; auto). assert (Lv : length v = n) by apply LP.
      replace (vsub (vadd (W (k + i)%nat) v) (W k)) with (vadd u v).
      2: { apply nth_ext0; [rewrite (vadd_length u v n), (vsub_length _ _ n); auto using vadd_length|].
           intros j Hj. unfold u. rewrite nth_vadd by (fold u; congruence). rewrite !nth_vsub by (first [rewrite !LW; reflexivity|rewrite (vadd_length _ _ n (LW _) Lv), LW; reflexivity]).
           rewrite nth_vadd by (rewrite LW, Lv; reflexivity). ring. }
      pose proof (normsq_nonneg (vsub u v)) as H. rewrite normsq_vsub in H by congruence. rewrite normsq_vadd by congruence. lra.
  Qed.

  Lemma weights_converge_steps m alpha B : exciting n m alpha xx -> (forall k, normsq (xx k) <= B) ->
    Un_cv e 0 -> Un_cv (fun k => normsq (P k)) 0 -> Un_cv (fun k => distsq (W k) ws) 0.
  Proof.
    intros (Ha & Hex) HB He HP.
    assert (HB0 : 0 <= B) by (eapply Rle_trans; [apply (normsq_nonneg (xx 0%nat))|apply HB]).
    set (r := fun i k => 2 * e (k + i)%nat ^ 2 + 2 * (B * normsq (vsub (W (k + i)%nat) (W k)))).
    apply (cv_squeeze _ (fun k => / alpha * total m (fun i => r i k))).
    2: { apply cv_scal, cv_sum. intros i _. unfold r. rewrite <- (Rplus_0_r 0). apply CV_plus.
         - apply cv_scal. replace 0 with (0 * (0 * 1)) by ring. apply CV_mult; [apply cv_shift, He|].
           apply CV_mult; [apply cv_shift, He|]. intros eps Heps. exists 0%nat. intros. unfold R_dist. rewrite Rminus_diag_eq, Rabs_R0 by reflexivity. exact Heps.
         - apply cv_scal, cv_scal, steps_vanish_drift, HP. }
    intros k. split; [apply normsq_nonneg|].
    apply Rmult_le_reg_l with alpha; [exact Ha|]. rewrite <- Rmult_assoc, Rinv_r, Rmult_1_l by lra.
    refine (Rle_trans _ _ _ (Hex k (vsub (W k) ws) _) _); [apply vsub_length; auto|].
    apply total_le. intros i Hi. unfold r.
    set (x := xx (k + i)%nat). set (u := vsub (W (k + i)%nat) (W k)).
    assert (Hdot : Rdot (vsub (W k) ws) x = - e (k + i)%nat - Rdot u x).
    { unfold u, e, x. rewrite !(Rdot_comm (vsub _ _)), !Rdot_vsub_r by (rewrite ?Lx, ?LW, ?Lws; auto). rewrite !(Rdot_comm (xx (k + i)%nat)). ring. }
    rewrite Hdot. assert (Hu : Rdot u x ^ 2 <= B * normsq u).
    { pose proof (Cauchy_Schwarz u x) as CS. pose proof (HB (k + i)%nat) as Hx. fold x in Hx. pose proof (normsq_nonneg u).
      replace (Rdot u x ^ 2) with (Rdot u x * Rdot u x) by ring. nra. }
    pose proof (pow2_ge_0 (e (k + i)%nat - Rdot u x)). nra.
  Qed.
End V.

Section S.
  Variable solve : list rvec -> list rvec -> option (list rvec).
  #[local] Hint Extern 0 (Num R) => exact (RNum solve) : typeclass_instances.
  Notation obj := (obj R).

  (** ** Specification *)
  (** np.linalg.solve returns for every k-by-k matrix that is not singular *)
  Definition complete_solver (k : nat) : Prop := forall A B : rmat, shape k k A -> shape k k B ->
    (forall v : rvec, length v = k -> map (fun row => Rdot row v) A = repeat 0 k -> v = repeat 0 k) ->
    solve A B <> None.

  (** ** The states of a filter on endless data, any class *)
  Fixpoint Oseq (o : obj) (dd : nat -> R) (xx : nat -> rvec) (k : nat) : obj :=
    match k with O => o | S k' => fst (adapt (dd k') (xx k') (Oseq o dd xx k')) end.

  Lemma first_S {A} N (f : nat -> A) : first (S N) f = first N f ++ [f N].
  Proof. unfold first. rewrite seq_S, map_app. reflexivity. Qed.
  Lemma firstn_first {A} N k (f : nat -> A) : (k <= N)%nat -> firstn k (first N f) = first k f.
  Proof.
    intros H. unfold first. rewrite firstn_map. f_equal. replace N with (k + (N - k))%nat by lia.
    rewrite seq_app, firstn_app, seq_length, Nat.sub_diag. rewrite firstn_O, app_nil_r. apply firstn_all2. rewrite seq_length; lia.
  Qed.
  Lemma adapt_all_first (o : obj) dd xx N : (forall k, (k < N)%nat -> snd (adapt (dd k) (xx k) (Oseq o dd xx k)) = Ok tt) ->
    adapt_all (first N dd) (first N xx) o = (Oseq o dd xx N, Ok tt).
  Proof.
    induction N as [|N IH]; intros H; [reflexivity|]. rewrite !first_S, adapt_all_app by (rewrite !first_length; reflexivity).
    unfold bind at 1. rewrite IH by (intros k Hk; apply H; lia). cbn [adapt_all Oseq]. specialize (H N ltac:(lia)).
    unfold bind, ret. destruct (adapt (dd N) (xx N) (Oseq o dd xx N)) as [o' r]. cbn [fst snd] in *. subst r. reflexivity.
  Qed.
  Lemma endless_states n (o : obj) dd xx : wf n o -> (forall k, length (xx k) = n) ->
    (forall k, snd (adapt (dd k) (xx k) (Oseq o dd xx k)) = Ok tt) ->
    endless_run solve o dd xx (fun k => dd k - pred_out (Oseq o dd xx k) (xx k)) (fun k => o_w (Oseq o dd xx k)).
  Proof.
    intros Hwf Hx Hok N HN.
    assert (Hrows : rowsl n (first N xx)).
    { unfold first. apply Forall_forall. intros r Hin. apply in_map_iff in Hin as (k & <- & _). apply Hx. }
    assert (Hne : first N xx <> []). { destruct N; [lia|discriminate]. }
    assert (Hl : length (first N dd) = length (first N xx)) by (rewrite !first_length; reflexivity).
    destruct (run_eq n o _ _ Hwf Hrows Hl Hne) as (h & E & _).
    pose proof (adapt_all_first o dd xx N (fun k _ => Hok k)) as HA.
    assert (HO : snd (adapt_all (first N dd) (first N xx) o) = Ok tt) by (rewrite HA; reflexivity).
    assert (Hst : forall k, (k < N)%nat -> state_after k (first N dd) (first N xx) o = Oseq o dd xx k).
    { intros k Hk. unfold state_after. rewrite !firstn_first by lia. rewrite adapt_all_first by (intros; apply Hok). reflexivity. }
    do 2 eexists. rewrite E, HO. cbn [rmap]. apply pair_equal_spec. split; [reflexivity|]. f_equal.
    apply pair_equal_spec. split; [apply pair_equal_spec; split; [reflexivity|]|].
    - apply (nth_ext _ _ 0 0).
      + rewrite map2_length, first_length, ytrace_length, !first_length by exact Hl. lia.
      + intros k Hk. rewrite map2_length, ytrace_length, !first_length in Hk by exact Hl. rewrite first_nth by lia.
        change (@nsub R (RNum solve)) with Rminus. rewrite nth_map2_sub by (rewrite ?ytrace_length, ?first_length by exact Hl; lia).
        rewrite first_nth by lia. f_equal.
        refine (eq_trans (ytrace_nth _ _ o k Hl _ HO) _); [rewrite first_length; lia|]. rewrite Hst, first_nth by lia. reflexivity.
    - apply (nth_ext _ _ [] []).
      + rewrite wtrace_length, !first_length by exact Hl. reflexivity.
      + intros k Hk. rewrite wtrace_length, first_length in Hk by exact Hl. rewrite wtrace_nth by (auto; rewrite ?first_length; lia).
        rewrite Hst, first_nth by lia. reflexivity.
  Qed.

  (** ** One step of AP *)
  Lemma st_energy k n (X G : rmat) (D w : rvec) mu ifc ws : shape k n X -> length D = k -> length w = n -> shape k k G ->
    mm k (map2 (map2 Rplus) (gram X) (mscale ifc (identity k))) G = identity k ->
    length ws = n -> mv X ws = D ->
    let e := vsub D (mv X w) in let z := mv G e in let g := mv (transpose n X) z in
    distsq (vadd w (vsc mu g)) ws = distsq w ws - mu * (2 - mu) * normsq g - 2 * mu * ifc * normsq z /\
    e = vadd (mv X g) (vsc ifc z) /\ length z = k /\ length g = n.
  Proof.
    intros HX HD Hw HG HA Hws HE. cbv zeta.
    pose proof (st_len solve k n X G D w mu HX HD Hw HG) as L. cbv zeta in L.
    pose proof (st_e solve k n X G D w mu ifc HX HD Hw HG HA) as Ee. cbv zeta in Ee.
    pose proof (st_zKz solve k n X G D w mu HX HD Hw HG) as Ez. cbv zeta in Ez.
    set (e := vsub D (mv X w)) in *. set (z := mv G e) in *. set (g := mv (transpose n X) z) in *.
    destruct L as (He & Hz & Hg & Hw' & Hxg). split; [|auto].
    assert (E0 : distsq (vadd w (vsc mu g)) ws = distsq w ws + 2 * mu * Rdot g (vsub w ws) + mu * mu * normsq g).
    { rewrite distsq_move by congruence. rewrite Rdot_vsub_r by congruence. rewrite (Rdot_comm g w), (Rdot_comm g ws). ring. }
    assert (E1 : Rdot g (vsub w ws) = - (normsq g + ifc * normsq z)).
    { unfold g at 1. rewrite <- (mv_adjoint solve k n X z (vsub w ws) HX Hz) by (apply vsub_length; auto).
      rewrite (mv_vsub solve k n) by auto. rewrite HE.
      replace (vsub (mv X w) D) with (vneg e).
      - rewrite Rdot_vneg_r. rewrite Ee. rewrite Rdot_vadd_r by (rewrite ?vsc_length; congruence).
        rewrite Rdot_vsc_r, Ez. reflexivity.
      - unfold e, vneg, vsub. clear. generalize (mv X w) as u. induction D as [|a D' IH]; intros [|b u]; simpl; auto.
        f_equal; [ring|apply IH]. }
    rewrite E0, E1. ring.
  Qed.

  Lemma nth0_sq (z : rvec) : nth 0 z 0 ^ 2 <= normsq z.
  Proof. destruct z as [|a z]; unfold normsq; cbn [nth Rdot]; [lra|]. pose proof (normsq_nonneg z) as H. unfold normsq in H. nra. Qed.

  Lemma ap_no_raise order ifc mu n (o : obj) past d x : complete_solver order -> 0 < ifc -> wf n o -> ap_inv order ifc mu o ->
    memory_is order n past o -> (forall t u, In (t, u) past -> length u = n) -> length x = n -> snd (adapt d x o) = Ok tt.
  Proof.
    intros HC Hi Hwf Hinv HM Hpast Hl.
    pose proof (ap_update_state order ifc mu n o past d x Hwf Hinv HM Hl) as HU. cbv zeta in HU.
    set (X := window order (zeros n) (map snd (past ++ [(d, x)]))) in *.
    assert (HX : shape order n X).
    { split; [apply window_length|]. apply Forall_forall. intros u Hu. apply window_In in Hu as [Hu|Hu].
      - apply in_map_iff in Hu as ((t & u') & E & Hu). cbn [snd] in E. subst u'. apply in_app_or in Hu as [Hu|[Hu|[]]]; [eapply Hpast; eauto|congruence].
      - subst u. apply repeat_length. }
    change (map (fun a => map (fun b => ndot a b) X) X) with (gram X) in HU.
    set (A := map2 (map2 nadd) (gram X) (mscale ifc (identity order))) in *.
    pose proof (gram_shape solve order n X HX) as HS.
    pose proof (mscale_shape solve order order ifc (identity order) (identity_shape solve order)) as HI.
    assert (HA : shape order order A) by (apply (map2m_shape order order Rplus); auto).
    destruct (nsolve A (identity order)) as [G|] eqn:E; [apply HU|exfalso].
    apply (HC A (identity order) HA (identity_shape solve order)); [|exact E].
    intros v Hv Hz.
    assert (E1 : mv A v = vadd (mv (gram X) v) (vsc ifc v)).
    { unfold A. change (map2 (map2 nadd)) with (map2 (map2 Rplus)). rewrite (mv_map2_plus solve order order) by auto.
      f_equal. rewrite (mv_mscale solve), (mv_identity solve) by auto. reflexivity. }
    change (mv A v = repeat 0 order) in Hz. rewrite E1 in Hz.
    assert (E2 : Rdot v (vadd (mv (gram X) v) (vsc ifc v)) = 0) by (rewrite Hz; apply Rdot_zero_r).
    rewrite Rdot_vadd_r in E2 by (rewrite ?vsc_length, ?mv_len; rewrite ?(proj1 HS); congruence).
    rewrite Rdot_vsc_r, (mv_gram solve order n) in E2 by auto.
    rewrite (mv_adjoint solve order n X v _ HX Hv) in E2 by (rewrite mv_len; apply transpose_len).
    set (g := mv (transpose n X) v) in *. pose proof (normsq_nonneg g) as P1. pose proof (normsq_nonneg v) as P2.
    change (Rdot g g) with (normsq g) in E2. change (Rdot v v) with (normsq v) in E2.
    assert (Hn : normsq v = 0) by nra. rewrite <- Hv. apply normsq_zero; exact Hn.
  Qed.

  Lemma ap_energy order ifc mu n ws (o : obj) d x : good_solver solve -> complete_solver order -> length ws = n -> 0 < ifc -> 0 < mu < 2 ->
    ap_clean solve order ifc mu n ws o -> length x = n -> d = Rdot ws x ->
    snd (adapt d x o) = Ok tt /\
    exists g q, length g = n /\ 0 <= q /\ o_w (fst (adapt d x o)) = vadd (o_w o) (vsc mu g) /\
      distsq (o_w (fst (adapt d x o))) ws = distsq (o_w o) ws - mu * (2 - mu) * normsq g - 2 * mu * ifc * q /\
      (d - Rdot (o_w o) x) ^ 2 <= 2 * (normsq x * normsq g) + 2 * (ifc ^ 2 * q).
  Proof.
    intros HS HC Hws Hi Hm (Hwf & Hinv & past & HM & Hp) Hl Hd.
    assert (Hpl : forall t u, In (t, u) past -> length u = n) by (intros t u H; apply (Hp t u H)).
    assert (Hok : snd (adapt d x o) = Ok tt) by (eapply ap_no_raise; eauto).
    split; [exact Hok|].
    assert (Hp' : from_system n ws (past ++ [(d, x)])).
    { intros t u H. apply in_app_or in H as [H|[[= <- <-]|[]]]; auto. }
    destruct (adapt d x o) as [o' r] eqn:HA. cbn [fst snd] in *. subst r.
    destruct (ap_step_state solve order ifc mu n o past d x o' HS Hwf Hinv HM Hpl Hl HA) as (G & HX & HD & Hw & HG & HAG & Hw').
    assert (Ho : (1 <= order)%nat).
    { destruct Hwf as (_ & _ & Hwe). destruct Hinv as (Hcf & _). unfold ap_config in Hcf.
      destruct (o_ext o) as [| | | | | | | | | | | | | | | ord xm dm ii id ym em]; try contradiction. destruct Hcf as (<- & _). apply Hwe. }
    assert (Hst : stored order n (past ++ [(d, x)]) = (d, x) :: firstn (order - 1) (stored order n past)) by (apply window_push; auto).
    set (St := stored order n (past ++ [(d, x)])) in *.
    assert (HE : mv (map snd St : rmat) ws = map fst St).
    { unfold mv. rewrite map_map. apply map_ext_in. intros (t & u) H. cbn [fst snd].
      change (Rdot u ws = t). unfold St, stored in H. apply window_In in H as [H|H].
      - rewrite Rdot_comm. symmetry. apply (Hp' t u H).
      - injection H as -> ->. apply Rdot_zero_l. }
    destruct (st_energy order n (map snd St) G (map fst St) (o_w o) mu ifc ws HX HD Hw HG HAG Hws HE) as (E1 & E2 & Lz & Lg).
    rewrite <- Hw' in E1.
    set (e := vsub (map fst St) (mv (map snd St : rmat) (o_w o))) in *. set (z := mv G e) in *. set (g := mv (transpose n (map snd St : rmat)) z) in *.
    exists g, (normsq z). split; [exact Lg|]. split; [apply normsq_nonneg|]. split; [exact Hw'|]. split; [exact E1|].
    assert (F : d - Rdot (o_w o) x = Rdot x g + ifc * nth 0 z 0).
    { transitivity (nth 0 e 0).
      - unfold e. rewrite Hst. cbn [map fst snd mv]. rewrite (Rdot_comm (o_w o) x). reflexivity.
      - rewrite E2, nth_vadd by (rewrite vsc_length, mv_len, map_length; unfold St, stored; rewrite window_length; congruence).
        rewrite nth_vsc. f_equal. rewrite Hst. reflexivity. }
    rewrite F. pose proof (Cauchy_Schwarz x g) as CS. pose proof (nth0_sq z) as Hz. set (a := Rdot x g) in *. set (b := nth 0 z 0) in *.
    pose proof (pow2_ge_0 (a - ifc * b)) as Hsq.
    assert (ifc ^ 2 * b ^ 2 <= ifc ^ 2 * normsq z) by (apply Rmult_le_compat_l; [apply pow2_ge_0|exact Hz]).
    assert (a ^ 2 <= normsq x * normsq g) by lra. lra.
  Qed.

  (** *** C58: with regularisation and a step between 0 and 2 the filter never raises, and on noise-free endless data
      of bounded inputs its errors tend to zero, the distance to the true system never grows, and the weights tend
      to the true system if the inputs keep exciting all directions; whatever (noise-free) calls it received before *)
  Theorem C58_AP_never_raises : forall rng (kw : kwargs R) n (o : obj) ps d x mu order ifc,
    complete_solver order -> rng_ok rng -> sane_kw kw -> kw_n kw = Some (Z.of_nat n) ->
    kw_mu kw = Some mu -> kw_order kw = Some order -> kw_ifc kw = Some ifc -> 0 < ifc ->
    new_filter rng KAP kw = Ok o -> Forall (op_shape n) ps -> length x = n ->
    snd (adapt d x (exec_all ps o)) = Ok tt.
  Proof.
    intros rng kw n o ps d x mu order ifc HC Hrng Hkw Hn Hmu Hor Hif Hi Ho HF Hl.
    destruct (ap_history solve rng kw _ o ps mu order ifc Hrng Hkw Hn Hmu Hor Hif Ho HF) as (Hwf & Hinv & HM).
    eapply ap_no_raise; eauto. intros t u H. eapply fed_all_shape; eauto.
  Qed.

  Theorem C58_AP_identifies : forall rng (kw : kwargs R) n (o : obj) ps mu order ifc dd xx ws B,
    good_solver solve -> complete_solver order -> rng_ok rng -> sane_kw kw -> kw_n kw = Some (Z.of_nat n) ->
    kw_mu kw = Some mu -> kw_order kw = Some order -> kw_ifc kw = Some ifc -> 0 < ifc -> 0 < mu < 2 ->
    new_filter rng KAP kw = Ok o -> Forall (op_shape n) ps -> length ws = n ->
    (forall t u, In (t, u) (fed_all ps o) -> t = Rdot ws u) ->
    (forall k, length (xx k) = n) -> (forall k, dd k = Rdot ws (xx k)) -> (forall k, normsq (xx k) <= B) ->
    identifies solve n (exec_all ps o) dd xx ws.
  Proof.
    intros rng kw n o ps mu order ifc dd xx ws B HS HC Hrng Hkw Hn Hmu Hor Hif Hi Hm Ho HF Hws Hnf Hx Hd HB.
    destruct (ap_history solve rng kw _ o ps mu order ifc Hrng Hkw Hn Hmu Hor Hif Ho HF) as (Hwf & Hinv & HM).
    set (oo := exec_all ps o) in *.
    assert (Hclean : forall k, ap_clean solve order ifc mu n ws (Oseq oo dd xx k)).
    { induction k as [|k IH].
      - split; [auto|]. split; [auto|]. exists (fed_all ps o). split; auto.
        intros t u H; split; [apply Hnf; auto|eapply fed_all_shape; eauto].
      - cbn [Oseq]. apply (ap_clean_step solve order ifc mu n ws); auto; lra. }
    assert (Hen := fun k => ap_energy order ifc mu n ws (Oseq oo dd xx k) (dd k) (xx k) HS HC Hws Hi Hm (Hclean k) (Hx k) (Hd k)).
    set (W := fun k => o_w (Oseq oo dd xx k)).
    set (DD := fun k => distsq (W k) ws).
    assert (LW : forall k, length (W k) = n) by (intros k; apply (Hclean k)).
    assert (HD1 : forall k, DD (S k) <= DD k).
    { intros k. destruct (Hen k) as (_ & g & q & _ & Hq & _ & E & _).
      change (DD (S k) = DD k - mu * (2 - mu) * normsq g - 2 * mu * ifc * q) in E. rewrite E. pose proof (normsq_nonneg g).
      assert (0 <= mu * (2 - mu) * normsq g) by (apply Rmult_le_pos; auto; apply Rmult_le_pos; lra).
      assert (0 <= 2 * mu * ifc * q) by (apply Rmult_le_pos; auto; apply Rmult_le_pos; lra). lra. }
    pose proof (cv_decrement DD (fun k => normsq_nonneg _) HD1) as Hcv.
    assert (HB0 : 0 <= B) by (eapply Rle_trans; [apply (normsq_nonneg (xx 0%nat))|apply HB]).
    set (u := fun k => Rdot ws (xx k) - Rdot (W k) (xx k)).
    assert (Hm2 : 0 < mu * (2 - mu)) by (apply Rmult_lt_0_compat; lra).
    assert (Hu : Un_cv u 0).
    { apply (cv_from_sq u (fun k => DD k - DD (S k)) (2 * B / (mu * (2 - mu)) + ifc / mu)); [|exact Hcv].
      intros k. destruct (Hen k) as (_ & g & q & _ & Hq & _ & E & F).
      change (DD (S k) = DD k - mu * (2 - mu) * normsq g - 2 * mu * ifc * q) in E. rewrite E.
      unfold u. rewrite <- Hd. unfold W. refine (Rle_trans _ _ _ F _). pose proof (normsq_nonneg g) as Pg.
      replace (DD k - (DD k - mu * (2 - mu) * normsq g - 2 * mu * ifc * q)) with (mu * (2 - mu) * normsq g + 2 * mu * ifc * q) by ring.
      replace ((2 * B / (mu * (2 - mu)) + ifc / mu) * (mu * (2 - mu) * normsq g + 2 * mu * ifc * q))
        with (2 * (B * normsq g) + 2 * (ifc ^ 2 * q) + (4 * B * (ifc * q) / (2 - mu) + ifc * (2 - mu) * normsq g)) by (field; lra).
      assert (normsq (xx k) * normsq g <= B * normsq g) by (apply Rmult_le_compat_r; auto).
      assert (0 <= 4 * B * (ifc * q) / (2 - mu)).
      { apply Rmult_le_pos; [|left; apply Rinv_0_lt_compat; lra]. apply Rmult_le_pos; [lra|apply Rmult_le_pos; lra]. }
      assert (0 <= ifc * (2 - mu) * normsq g) by (apply Rmult_le_pos; auto; apply Rmult_le_pos; lra). lra. }
    assert (Hoc : forall k, is_OCNLMS (Oseq oo dd xx k) = false).
    { intros k. destruct (Hclean k) as (_ & (Hc & _) & _). unfold ap_config in Hc. unfold is_OCNLMS. destruct (o_ext (Oseq oo dd xx k)); auto; contradiction. }
    exists (fun k => dd k - pred_out (Oseq oo dd xx k) (xx k)), W. split.
    { apply (endless_states n); auto. intros k. apply (Hen k). }
    split; [exact HD1|]. split.
    - intros eps He. destruct (Hu eps He) as (N & HN). exists N. intros k Hk.
      rewrite (pred_out_R solve n) by (auto; apply (Hclean k)). rewrite Hd. exact (HN k Hk).
    - intros m alpha Hex.
      set (P := fun k => vsub (W (S k)) (W k)).
      assert (HPk : forall k g, length g = n -> W (S k) = vadd (W k) (vsc mu g) -> P k = vsc mu g).
      { intros k g Lg E. unfold P. rewrite E. apply nth_ext0.
        - rewrite (vsub_length _ _ n), vsc_length; auto. apply vadd_length; rewrite ?vsc_length; auto.
        - intros j Hj. rewrite nth_vsub by (rewrite (vadd_length _ _ n); rewrite ?vsc_length; auto; symmetry; apply LW).
          rewrite nth_vadd by (rewrite vsc_length, LW; auto). ring. }
      apply (weights_converge_steps n xx ws W P Hx Hws LW) with (m := m) (alpha := alpha) (B := B); auto.
      + intros k. unfold P. apply vsub_length; auto.
      + intros k. destruct (Hen k) as (_ & g & q & Lg & _ & E & _). rewrite (HPk k g Lg E). exact E.
      + apply (cv_squeeze _ (fun k => mu / (2 - mu) * (DD k - DD (S k)))); [|apply cv_scal, Hcv].
        intros k. split; [apply normsq_nonneg|]. destruct (Hen k) as (_ & g & q & Lg & Hq & Ew & E & _).
        rewrite (HPk k g Lg Ew), normsq_vsc.
        change (DD (S k) = DD k - mu * (2 - mu) * normsq g - 2 * mu * ifc * q) in E. rewrite E.
        replace (mu / (2 - mu) * (DD k - (DD k - mu * (2 - mu) * normsq g - 2 * mu * ifc * q)))
          with (mu * mu * normsq g + 2 * mu * mu * (ifc * q) / (2 - mu)) by (field; lra).
        assert (0 <= 2 * mu * mu * (ifc * q) / (2 - mu)).
        { apply Rmult_le_pos; [|left; apply Rinv_0_lt_compat; lra]. apply Rmult_le_pos; [|apply Rmult_le_pos; lra]. nra. }
        lra.
  Qed.
End S.

(** *** The hypotheses can be met: Cramer's rule for order 2, inputs alternating between two directions *)
Example rsolve_complete : complete_solver rsolve 2.
Proof.
  intros A B (HA & FA) (HB & FB) Hinj.
  destruct A as [|a [|c [|]]]; try discriminate. destruct B as [|p [|r [|]]]; try discriminate.
  pose proof (Forall_inv FA) as La. pose proof (Forall_inv (Forall_inv_tail FA)) as Lc.
  pose proof (Forall_inv FB) as Lp. pose proof (Forall_inv (Forall_inv_tail FB)) as Lr. cbv beta in La, Lc, Lp, Lr.
  destruct a as [|a [|b [|]]]; try discriminate. destruct c as [|c [|d [|]]]; try discriminate.
  destruct p as [|p [|q [|]]]; try discriminate. destruct r as [|r [|s [|]]]; try discriminate.
  unfold rsolve. cbv zeta. destruct (Req_EM_T (a * d - b * c) 0) as [Hd|]; [exfalso|discriminate].
  cbn [map Rdot repeat] in Hinj.
  pose proof (Hinj [d; - c] eq_refl) as H1. pose proof (Hinj [- b; a] eq_refl) as H2. cbn [map Rdot] in H1, H2.
  assert (E1 : [d; - c] = [0; 0]) by (apply H1; f_equal; [lra|f_equal; lra]).
  assert (E2 : [- b; a] = [0; 0]) by (apply H2; f_equal; [lra|f_equal; lra]).
  injection E1 as -> Ec. injection E2 as Eb ->. assert (c = 0) by lra. assert (b = 0) by lra. subst c b.
  assert (E3 : [1; 0] = [0; 0]) by (apply (Hinj [1; 0] eq_refl); cbn [map Rdot]; f_equal; [lra|f_equal; lra]).
  injection E3 as E3. lra.
Qed.
Example C58_hypotheses : forall rng, rng_ok rng ->
  let xx := fun k => if Nat.even k then [1; 0] else [1; 2] in
  good_solver rsolve /\ complete_solver rsolve 2 /\ sane_kw (apR_kw 2 1 (1 / 2)) /\
  new_filter (NT := RNum rsolve) rng KAP (apR_kw 2 1 (1 / 2)) = Ok (apR 2 1 (1 / 2)) /\
  (forall k, length (xx k) = 2%nat) /\ (forall k, normsq (xx k) <= 5) /\ exciting 2 2 (1 / 2) xx.
Proof.
  intros rng Hrng xx. split; [exact rsolve_good|]. split; [exact rsolve_complete|].
  split; [split; intros m Hm; cbn in Hm; [discriminate Hm|injection Hm as <-; lia]|]. split; [apply apR_new|].
  split; [intros k; unfold xx; destruct (Nat.even k); reflexivity|].
  split; [intros k; unfold xx, normsq; destruct (Nat.even k); cbn [Rdot]; lra|].
  split; [lra|]. intros k v Hv. destruct v as [|a [|b [|]]]; try discriminate.
  unfold total. cbn [seq map Rsum]. rewrite Nat.add_0_r. unfold xx.
  replace (k + 1)%nat with (S k) by lia. rewrite Nat.even_succ, <- Nat.negb_even. destruct (Nat.even k); cbn [negb]; unfold normsq; cbn [Rdot];
    pose proof (pow2_ge_0 (a + 2 * b)); pose proof (pow2_ge_0 (a + b)); nra.
Qed.
