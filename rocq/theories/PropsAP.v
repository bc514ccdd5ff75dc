(** Properties C24, C25: the affine projection filter, exact real arithmetic and a correct linear solver. *)
From Coq Require Import Reals Lra Psatz QArith.
From Verif Require Import Py Num NumQ Numpy Filters Registry Spec StructProofs RunProofs Reach RVec RFilter Steps RMat
  PropsRegistry PropsStability PropsRun PropsAlgebra PropsAPMem.
Open Scope R_scope.

Section Props.
  Variable solve : list rvec -> list rvec -> option (list rvec).
  #[local] Hint Extern 0 (Num R) => exact (RNum solve) : typeclass_instances.
  Notation obj := (obj R).

  (** ** Specification *)
  (** np.linalg.solve(A, B), when it returns, returns the matrix G with A G = B *)
  Definition good_solver : Prop := forall k (A B G : rmat), shape k k A -> shape k k B ->
    solve A B = Some G -> shape k k G /\ mm k A G = B.

  (** the (target, input) pairs the filter remembers after having been given [samples] *)
  Definition stored (order n : nat) (samples : list (R * rvec)) : list (R * rvec) :=
    window order (0, repeat 0 n) samples.

  (** the errors of weights w on a list of samples *)
  Definition errors (w : rvec) (samples : list (R * rvec)) : rvec := map (fun '(t, u) => t - Rdot u w) samples.

  (** ** Algebra of one step *)
  Definition gram (X : rmat) : rmat := map (fun a => map (fun b => Rdot a b) X) X.

  Lemma gram_mm k n (X : rmat) : shape k n X -> gram X = mm k X (transpose n X).
  Proof.
    intros (H1 & H2). unfold gram, mm. rewrite transpose_transpose; auto.
  Qed.
  Lemma gram_shape k n (X : rmat) : shape k n X -> shape k k (gram X).
  Proof. intros HX. rewrite (gram_mm k n) by auto. apply mm_shape. apply HX. Qed.
  Lemma mv_gram k n (X : rmat) z : shape k n X -> length z = k -> mv (gram X) z = mv X (mv (transpose n X) z).
  Proof.
    intros HX Hz. rewrite (gram_mm k n) by auto. apply (mv_mm solve k n k); auto. apply transpose_shape. apply HX.
  Qed.

  Section Step.
    Variables (k n : nat) (X G : rmat) (D w : rvec) (mu ifc : R).
    Hypotheses (HX : shape k n X) (HD : length D = k) (Hw : length w = n) (HG : shape k k G).
    Let A : rmat := map2 (map2 Rplus) (gram X) (mscale ifc (identity k)).
    Hypothesis (HA : mm k A G = identity k).
    Let e : rvec := vsub D (mv X w).
    Let z : rvec := mv G e.
    Let g : rvec := mv (transpose n X) z.
    Let w' : rvec := vadd w (vsc mu g).

    Lemma st_len : length e = k /\ length z = k /\ length g = n /\ length w' = n /\ length (mv X g) = k.
    Proof.
      assert (He : length e = k) by (unfold e; apply vsub_length; auto; rewrite mv_len; apply HX).
      assert (Hz : length z = k) by (unfold z; rewrite mv_len; apply HG).
      assert (Hg : length g = n) by (unfold g; rewrite mv_len; apply transpose_len).
      repeat split; auto.
      - unfold w'; apply vadd_length; rewrite ?vsc_length; auto.
      - rewrite mv_len; apply HX.
    Qed.

    Lemma st_e : e = vadd (mv X g) (vsc ifc z).
    Proof.
      destruct st_len as (He & Hz & Hg & _).
      pose proof (gram_shape k n X HX) as HS.
      pose proof (mscale_shape solve k k ifc (identity k) (identity_shape solve k)) as HI.
      assert (E : mv A z = e).
      { unfold z. rewrite <- (mv_mm solve k k k A G e); auto.
        - rewrite HA. apply (mv_identity solve k); auto.
        - unfold A. apply map2m_shape; auto. }
      rewrite <- E at 1. unfold A. rewrite (mv_map2_plus solve k k) by auto.
      rewrite (mv_gram k n) by auto. fold g. f_equal.
      rewrite mv_mscale, (mv_identity solve k) by auto. reflexivity.
    Qed.

    Lemma st_e' : vsub D (mv X w') = vsub e (vsc mu (mv X g)).
    Proof.
      destruct st_len as (He & Hz & Hg & Hw' & Hxg).
      unfold w'. rewrite (mv_vadd solve k n) by (auto; rewrite vsc_length; auto). rewrite mv_vsc.
      assert (Hxw : length (mv X w) = k) by (rewrite mv_len; apply HX).
      apply nth_ext0.
      - rewrite (vsub_length _ _ k), (vsub_length _ _ k); auto; rewrite ?vsc_length; auto.
        apply vadd_length; rewrite ?vsc_length; auto.
      - intros i _. unfold e. rewrite !nth_vsub, nth_vadd, nth_vsc; rewrite ?vsc_length; try congruence.
        + ring.
        + rewrite (vsub_length _ _ k); congruence.
        + rewrite (vadd_length _ _ k); rewrite ?vsc_length; congruence.
    Qed.

    Lemma st_zKz : Rdot z (mv X g) = normsq g.
    Proof.
      destruct st_len as (He & Hz & Hg & Hw' & Hxg).
      rewrite (mv_adjoint solve k n X z g HX Hz Hg). reflexivity.
    Qed.

    (** a-posteriori errors *)
    Lemma st_post : 0 <= ifc -> 0 <= mu <= 2 -> normsq (vsub D (mv X w')) <= normsq e.
    Proof.
      intros Hi Hm. rewrite st_e'. destruct st_len as (He & Hz & Hg & Hw' & Hxg).
      rewrite normsq_vsub by (rewrite vsc_length; congruence). rewrite normsq_vsc, Rdot_vsc_r.
      assert (E : Rdot e (mv X g) = normsq (mv X g) + ifc * normsq g).
      { rewrite st_e at 1. rewrite Rdot_vadd_l by (rewrite ?vsc_length; congruence).
        rewrite Rdot_vsc_l, st_zKz. reflexivity. }
      rewrite E. pose proof (normsq_nonneg (mv X g)) as P1. pose proof (normsq_nonneg g) as P2.
      set (a := normsq (mv X g)) in *. set (b := normsq g) in *. clearbody a b. clear - Hi Hm P1 P2.
      assert (0 <= mu * (2 - mu) * a) by (apply Rmult_le_pos; auto; apply Rmult_le_pos; lra).
      assert (0 <= mu * (ifc * b)) by (apply Rmult_le_pos; [lra|apply Rmult_le_pos; auto]).
      lra.
    Qed.

    Lemma st_scale : ifc = 0 -> vsub D (mv X w') = vsc (1 - mu) e.
    Proof.
      intros Hi. rewrite st_e'. destruct st_len as (He & Hz & Hg & Hw' & Hxg).
      assert (E : e = mv X g).
      { rewrite st_e. rewrite Hi. apply vadd_vsc_0. congruence. }
      rewrite E. apply nth_ext0.
      - rewrite (vsub_length _ _ k); rewrite ?vsc_length; congruence.
      - intros i _. rewrite nth_vsub, !nth_vsc by (rewrite ?vsc_length; congruence). ring.
    Qed.

    (** distance to a solution of the stored equations *)
    Lemma st_dist ws : length ws = n -> mv X ws = D -> 0 <= ifc -> 0 <= mu <= 2 -> distsq w' ws <= distsq w ws.
    Proof.
      intros Hws HE Hi Hm. destruct st_len as (He & Hz & Hg & Hw' & Hxg).
      assert (E0 : distsq w' ws = distsq w ws + 2 * mu * Rdot g (vsub w ws) + mu * mu * normsq g).
      { unfold w'. rewrite distsq_move by congruence. rewrite Rdot_vsub_r by congruence.
        rewrite (Rdot_comm g w), (Rdot_comm g ws). ring. }
      assert (E1 : Rdot g (vsub w ws) = - (normsq g + ifc * normsq z)).
      { unfold g at 1. rewrite <- (mv_adjoint solve k n X z (vsub w ws) HX Hz) by (apply vsub_length; auto).
        rewrite (mv_vsub solve k n) by auto. rewrite HE.
        replace (vsub (mv X w) D) with (vneg e).
        - rewrite Rdot_vneg_r. rewrite st_e. rewrite Rdot_vadd_r by (rewrite ?vsc_length; congruence).
          rewrite Rdot_vsc_r, st_zKz. reflexivity.
        - unfold e, vneg, vsub. clear. generalize (mv X w) as u. induction D as [|a D' IH]; intros [|b u]; simpl; auto.
          f_equal; [ring|apply IH]. }
      rewrite E0, E1. pose proof (normsq_nonneg g) as P1. pose proof (normsq_nonneg z) as P2.
      set (a := normsq g) in *. set (b := normsq z) in *. clearbody a b. clear - Hi Hm P1 P2.
      assert (0 <= mu * (2 - mu) * a) by (apply Rmult_le_pos; auto; apply Rmult_le_pos; lra).
      assert (0 <= mu * (ifc * b)) by (apply Rmult_le_pos; [lra|apply Rmult_le_pos; auto]).
      lra.
    Qed.

    (** mu = 1, ifc = 0: w' is the solution of the stored equations closest to w *)
    Lemma st_closest v : ifc = 0 -> mu = 1 -> length v = n -> mv X v = D -> distsq w' w <= distsq v w.
    Proof.
      intros Hi Hm Hv HE. destruct st_len as (He & Hz & Hg & Hw' & Hxg).
      assert (E : e = mv X g) by (rewrite st_e, Hi; apply vadd_vsc_0; congruence).
      set (r := vsub v w).
      assert (Hr : length r = n) by (apply vsub_length; auto).
      assert (E1 : Rdot g r = normsq g).
      { unfold g at 1. rewrite <- (mv_adjoint solve k n X z r HX Hz Hr). unfold r. rewrite (mv_vsub solve k n) by auto.
        rewrite HE. fold e. rewrite E. apply st_zKz. }
      assert (E2 : vsub w' w = g).
      { apply nth_ext0; [rewrite (vsub_length w' w n Hw' Hw); auto|].
        intros i _. rewrite nth_vsub by congruence. unfold w'.
        rewrite nth_vadd by (rewrite vsc_length; congruence). rewrite nth_vsc, Hm. ring. }
      unfold distsq. rewrite E2. fold r.
      pose proof (normsq_nonneg (vsub r g)) as P. rewrite normsq_vsub in P by congruence.
      rewrite (Rdot_comm r), E1 in P. lra.
    Qed.
  End Step.

  Lemma window_map {A B} (f : A -> B) order pad l : window order (f pad) (map f l) = map f (window order pad l).
  Proof.
    unfold window. rewrite <- map_rev. replace (repeat (f pad) order) with (map f (repeat pad order)).
    - rewrite <- map_app, firstn_map. reflexivity.
    - clear. induction order as [|k IH]; cbn [repeat map]; [reflexivity|rewrite IH; reflexivity].
  Qed.

  Lemma window_In {A} order (pad : A) l a : In a (window order pad l) -> In a l \/ a = pad.
  Proof.
    unfold window. intros H.
    assert (H' : In a (rev l ++ repeat pad order)).
    { rewrite <- (firstn_skipn order (rev l ++ repeat pad order)). apply in_or_app; auto. }
    apply in_app_or in H' as [H'|H']; [left; apply in_rev; auto|right; eapply repeat_spec; eauto].
  Qed.

  Lemma errors_vsub w St : errors w St = vsub (map fst St) (mv (map snd St : rmat) w).
  Proof. unfold errors. induction St as [|[t u] St IH]; cbn; auto. f_equal; auto. Qed.

  Lemma new_ap_mu rng (kw : kwargs R) n (o : obj) mu : kw_n kw = Some (Z.of_nat n) -> kw_mu kw = Some mu ->
    new_filter rng KAP kw = Ok o -> o_mu o = mu.
  Proof.
    intros Hn Hm. unfold new_filter. destruct (kw_other kw); [discriminate|].
    destruct (existsb _ _); [discriminate|]. rewrite Hn, Hm. unfold init_base.
    destruct (_ =? -1)%Z; [discriminate|]. destruct (init_weights _ _ _); [|discriminate].
    cbn [rbind rmap init_ext]. intros [= <-]. reflexivity.
  Qed.

  (** rows fed by well-shaped calls have the right width *)
  Lemma fed_loop_In (d : rvec) : forall (x : list rvec) (o : obj) t u, In (t, u) (fed_loop d x o) -> In u x.
  Proof.
    induction d as [|d0 d IH]; intros [|x0 x] o t u; cbn [fed_loop]; try contradiction.
    intros [[= <- <-]|H]; [left; auto|]. destruct (adapt d0 x0 o) as [o' [[]|]]; [right; eauto|contradiction].
  Qed.
  Lemma fed_run_In (d : rvec) (x : list rvec) (o : obj) t u : In (t, u) (fed_run d x o) -> In u x.
  Proof. unfold fed_run. destruct (_ =? _)%nat; [apply fed_loop_In|contradiction]. Qed.
  Lemma fed_shape n p (o : obj) t u : op_shape n p -> In (t, u) (fed p o) -> length u = n.
  Proof.
    destruct p as [x|d x|d x|d x nt ep]; cbn [op_shape fed]; intros Hs H.
    - contradiction.
    - destruct H as [[= <- <-]|[]]; auto.
    - apply fed_run_In in H. unfold rows_of in Hs. rewrite Forall_forall in Hs; auto.
    - set (N := ntrunc _) in H. clearbody N.
      assert (H1 : Forall (fun r : rvec => length r = n) (slice_to x N)) by (apply (firstn_rows (T := R)); exact Hs).
      assert (H2 : Forall (fun r : rvec => length r = n) (slice_from x N)) by (apply (skipn_rows (T := R)); exact Hs).
      rewrite Forall_forall in H1, H2. revert H. generalize (slice_to d N), (slice_from d N). intros d1 d2.
      revert o; induction ep as [|ep IH]; intros o; cbn [fed_pretrained]; intros H.
      + apply fed_run_In in H; auto.
      + apply in_app_or in H as [H|H]; [apply fed_run_In in H; auto|].
        destruct (run _ _ o) as [o' [v|]]; [eauto|contradiction].
  Qed.
  Lemma fed_all_shape n ps : forall (o : obj) t u, Forall (op_shape n) ps -> In (t, u) (fed_all ps o) -> length u = n.
  Proof.
    induction ps as [|p ps IH]; intros o t u HF H; [contradiction|]. inversion HF; subst. cbn [fed_all] in H.
    apply in_app_or in H as [H|H]; [eapply fed_shape; eauto|eapply IH; eauto].
  Qed.

  (** one successful adapt call on a filter with a known memory *)
  Lemma ap_step_state order ifc mu n (now : obj) past d x o' :
    good_solver -> wf n now -> ap_inv order ifc mu now -> memory_is order n past now ->
    (forall t u, In (t, u) past -> length u = n) -> length x = n ->
    adapt d x now = (o', Ok tt) ->
    let St := stored order n (past ++ [(d, x)]) in
    let X : rmat := map snd St in let D : rvec := map fst St in
    let w : rvec := o_w now in
    exists G : rmat, shape order n X /\ length D = order /\ length w = n /\ shape order order G /\
      mm order (map2 (map2 Rplus) (gram X) (mscale ifc (identity order))) G = identity order /\
      o_w o' = vadd w (vsc mu (mv (transpose n X) (mv G (vsub D (mv X w))))).
  Proof.
    intros HS Hwf Hinv HM Hpast Hl HA St X D w.
    pose proof (ap_update_state order ifc mu n now past d x Hwf Hinv HM Hl) as HU. cbv zeta in HU.
    assert (EX : window order (zeros n) (map snd (past ++ [(d, x)])) = X).
    { unfold X, St, stored. rewrite <- window_map. reflexivity. }
    assert (ED : window order n0 (map fst (past ++ [(d, x)])) = D).
    { unfold D, St, stored. rewrite <- window_map. reflexivity. }
    rewrite EX, ED in HU.
    assert (HXs : shape order n X).
    { split; [unfold X; rewrite map_length; unfold St, stored; apply window_length|].
      apply Forall_forall. intros u Hu. unfold X in Hu. apply in_map_iff in Hu as ((t & u') & Eu & Hu). cbn [snd] in Eu. subst u'.
      unfold St, stored in Hu. apply window_In in Hu as [Hu|Hu].
      - apply in_app_or in Hu as [Hu|[Hu|[]]]; [eapply Hpast; eauto|congruence].
      - injection Hu as _ ->. apply repeat_length. }
    pose proof (gram_shape order n X HXs) as HGs.
    pose proof (mscale_shape solve order order ifc (identity order) (identity_shape solve order)) as HI.
    rewrite HA in HU.
    destruct (nsolve _ _) as [G|] eqn:EG in HU; [|destruct HU as (HU & _); discriminate].
    destruct HU as (_ & HU). cbn [fst] in HU.
    destruct (HS order _ _ G (map2m_shape order order Rplus _ _ HGs HI) (identity_shape solve order) EG) as (HG1 & HG2).
    exists G. split; [auto|]. split; [unfold D, St, stored; rewrite map_length; apply window_length|].
    split; [apply Hwf|]. split; [auto|]. split; [exact HG2|]. exact HU.
  Qed.

  (** a new AP filter after any history of calls *)
  Lemma ap_history rng (kw : kwargs R) n (o : obj) ps mu order ifc :
    rng_ok rng -> sane_kw kw -> kw_n kw = Some (Z.of_nat n) ->
    kw_mu kw = Some mu -> kw_order kw = Some order -> kw_ifc kw = Some ifc ->
    new_filter rng KAP kw = Ok o -> Forall (op_shape n) ps ->
    wf n (exec_all ps o) /\ ap_inv order ifc mu (exec_all ps o) /\ memory_is order n (fed_all ps o) (exec_all ps o).
  Proof.
    intros Hrng Hkw Hn Hmu Hor Hif Ho HF.
    pose proof (new_filter_wf rng KAP kw n o Hrng Hkw Hn Ho) as Hwf.
    destruct (ap_config_new rng kw n o Hn Ho) as (HC & _).
    destruct (ap_config_exec_all _ _ (o_mu o) n ps o Hwf HF (conj HC eq_refl)) as (HC' & Hwf').
    pose proof (C23_memory_window rng kw n o ps Hrng Hkw Hn Ho HF) as HM.
    rewrite Hor in HC', HM. rewrite Hif in HC'. rewrite (new_ap_mu rng kw n o mu Hn Hmu Ho) in HC'. auto.
  Qed.

  (** one successful adapt call after any history *)
  Lemma ap_step_history rng (kw : kwargs R) n (o : obj) ps d x o' mu order ifc :
    good_solver -> rng_ok rng -> sane_kw kw -> kw_n kw = Some (Z.of_nat n) ->
    kw_mu kw = Some mu -> kw_order kw = Some order -> kw_ifc kw = Some ifc ->
    new_filter rng KAP kw = Ok o -> Forall (op_shape n) ps -> length x = n ->
    adapt d x (exec_all ps o) = (o', Ok tt) ->
    let St := stored order n (fed_all ps o ++ [(d, x)]) in
    let X : rmat := map snd St in let D : rvec := map fst St in
    let w : rvec := o_w (exec_all ps o) in
    exists G : rmat, shape order n X /\ length D = order /\ length w = n /\ shape order order G /\
      mm order (map2 (map2 Rplus) (gram X) (mscale ifc (identity order))) G = identity order /\
      o_w o' = vadd w (vsc mu (mv (transpose n X) (mv G (vsub D (mv X w))))).
  Proof.
    intros HS Hrng Hkw Hn Hmu Hor Hif Ho HF Hl HA.
    destruct (ap_history rng kw n o ps mu order ifc Hrng Hkw Hn Hmu Hor Hif Ho HF) as (Hwf & Hinv & HM).
    apply (ap_step_state order ifc mu n _ (fed_all ps o) d x o'); auto.
    intros t u; apply fed_all_shape; auto.
  Qed.

  (** ** C24 *)
  (** mu = 1, ifc = 0: the new weights reproduce all stored targets *)
  Theorem C24_projection : forall rng (kw : kwargs R) n (o o' : obj) ps d x order,
    good_solver -> rng_ok rng -> sane_kw kw -> kw_n kw = Some (Z.of_nat n) ->
    kw_mu kw = Some 1 -> kw_order kw = Some order -> kw_ifc kw = Some 0 ->
    new_filter rng KAP kw = Ok o -> Forall (op_shape n) ps -> length x = n ->
    adapt d x (exec_all ps o) = (o', Ok tt) ->
    forall t u, In (t, u) (stored order n (fed_all ps o ++ [(d, x)])) -> snd (predict u o') = Ok t.
  Proof.
    intros rng kw n o o' ps d x order HS Hrng Hkw Hn Hmu Hor Hif Ho HF Hl HA t u Hin.
    destruct (ap_step_history rng kw n o ps d x o' 1 order 0 HS Hrng Hkw Hn Hmu Hor Hif Ho HF Hl HA)
      as (G & HX & HD & Hw & HG & HAG & Hw').
    set (St := stored order n (fed_all ps o ++ [(d, x)])) in *.
    pose proof (st_scale order n (map snd St) G (map fst St) (o_w (exec_all ps o)) 1 0 HX HD Hw HG HAG eq_refl) as HE.
    rewrite <- Hw' in HE. rewrite Rminus_eq_0 in HE. rewrite <- errors_vsub in HE.
    pose proof (st_len order n (map snd St) G (map fst St) (o_w (exec_all ps o)) 1 HX HD Hw HG) as (_ & _ & _ & Hlw' & _).
    rewrite <- Hw' in Hlw'.
    assert (Hap : is_AP o' = true).
    { destruct (ap_history rng kw n o ps 1 order 0 Hrng Hkw Hn Hmu Hor Hif Ho HF) as (Hwf1 & HC1 & _).
      pose proof (ap_inv_adapt _ _ _ n _ d x Hwf1 Hl HC1) as (HC2 & _). rewrite HA in HC2. cbn [fst] in HC2.
      unfold ap_config in HC2. unfold is_AP. destruct (o_ext o'); auto; contradiction. }
    rewrite predict_plain by (unfold is_OCNLMS; unfold is_AP in Hap; destruct (o_ext o'); auto; discriminate). cbn [snd].
    assert (Hu : length u = n).
    { destruct HX as (_ & HX). rewrite Forall_forall in HX. apply HX. apply in_map_iff. exists (t, u); auto. }
    rewrite vdot_ok by congruence. f_equal.
    assert (Ht : t - Rdot u (o_w o') = 0).
    { assert (H0 : In (t - Rdot u (o_w o')) (errors (o_w o') St)) by (unfold errors; apply in_map_iff; exists (t, u); auto).
      rewrite HE, vsc_zero in H0. apply repeat_spec in H0. exact H0. }
    change (Rdot (o_w o') u = t). rewrite Rdot_comm. lra.
  Qed.

  (** ... and change the weights as little as possible *)
  Theorem C24_minimal_change : forall rng (kw : kwargs R) n (o o' : obj) ps d x order v,
    good_solver -> rng_ok rng -> sane_kw kw -> kw_n kw = Some (Z.of_nat n) ->
    kw_mu kw = Some 1 -> kw_order kw = Some order -> kw_ifc kw = Some 0 ->
    new_filter rng KAP kw = Ok o -> Forall (op_shape n) ps -> length x = n ->
    adapt d x (exec_all ps o) = (o', Ok tt) ->
    length v = n -> (forall t u, In (t, u) (stored order n (fed_all ps o ++ [(d, x)])) -> Rdot u v = t) ->
    distsq (o_w o') (o_w (exec_all ps o)) <= distsq v (o_w (exec_all ps o)).
  Proof.
    intros rng kw n o o' ps d x order v HS Hrng Hkw Hn Hmu Hor Hif Ho HF Hl HA Hv Hin.
    destruct (ap_step_history rng kw n o ps d x o' 1 order 0 HS Hrng Hkw Hn Hmu Hor Hif Ho HF Hl HA)
      as (G & HX & HD & Hw & HG & HAG & Hw').
    set (St := stored order n (fed_all ps o ++ [(d, x)])) in *. rewrite Hw'.
    apply (st_closest order n (map snd St) G (map fst St) (o_w (exec_all ps o)) 1 0 HX HD Hw HG HAG v eq_refl eq_refl Hv).
    unfold mv. rewrite map_map. apply map_ext_in. intros (t & u) H. cbn [fst snd]. exact (Hin t u H).
  Qed.

  (** ifc = 0: the stored errors are multiplied by 1 - mu *)
  Theorem C24_error_factor : forall rng (kw : kwargs R) n (o o' : obj) ps d x order mu,
    good_solver -> rng_ok rng -> sane_kw kw -> kw_n kw = Some (Z.of_nat n) ->
    kw_mu kw = Some mu -> kw_order kw = Some order -> kw_ifc kw = Some 0 ->
    new_filter rng KAP kw = Ok o -> Forall (op_shape n) ps -> length x = n ->
    adapt d x (exec_all ps o) = (o', Ok tt) ->
    let St := stored order n (fed_all ps o ++ [(d, x)]) in
    errors (o_w o') St = map (Rmult (1 - mu)) (errors (o_w (exec_all ps o)) St).
  Proof.
    intros rng kw n o o' ps d x order mu HS Hrng Hkw Hn Hmu Hor Hif Ho HF Hl HA St.
    destruct (ap_step_history rng kw n o ps d x o' mu order 0 HS Hrng Hkw Hn Hmu Hor Hif Ho HF Hl HA)
      as (G & HX & HD & Hw & HG & HAG & Hw'). fold St in HX, HD, HAG, Hw'.
    rewrite !errors_vsub, Hw'.
    exact (st_scale order n (map snd St) G (map fst St) (o_w (exec_all ps o)) mu 0 HX HD Hw HG HAG eq_refl).
  Qed.

  (** ifc >= 0, 0 <= mu <= 2: the stored errors do not grow *)
  Theorem C24_errors_shrink : forall rng (kw : kwargs R) n (o o' : obj) ps d x order mu ifc,
    good_solver -> rng_ok rng -> sane_kw kw -> kw_n kw = Some (Z.of_nat n) ->
    kw_mu kw = Some mu -> kw_order kw = Some order -> kw_ifc kw = Some ifc -> 0 <= ifc -> 0 <= mu <= 2 ->
    new_filter rng KAP kw = Ok o -> Forall (op_shape n) ps -> length x = n ->
    adapt d x (exec_all ps o) = (o', Ok tt) ->
    let St := stored order n (fed_all ps o ++ [(d, x)]) in
    normsq (errors (o_w o') St) <= normsq (errors (o_w (exec_all ps o)) St).
  Proof.
    intros rng kw n o o' ps d x order mu ifc HS Hrng Hkw Hn Hmu Hor Hif Hi Hm Ho HF Hl HA St.
    destruct (ap_step_history rng kw n o ps d x o' mu order ifc HS Hrng Hkw Hn Hmu Hor Hif Ho HF Hl HA)
      as (G & HX & HD & Hw & HG & HAG & Hw'). fold St in HX, HD, HAG, Hw'.
    rewrite !errors_vsub, Hw'.
    exact (st_post order n (map snd St) G (map fst St) (o_w (exec_all ps o)) mu ifc HX HD Hw HG HAG Hi Hm).
  Qed.

  (** noise-free targets *)
  Definition from_system (n : nat) (ws : rvec) (samples : list (R * rvec)) : Prop :=
    forall t u, In (t, u) samples -> t = Rdot ws u /\ length u = n.

  Definition ap_clean order ifc mu n ws (o : obj) : Prop :=
    wf n o /\ ap_inv order ifc mu o /\ exists past, memory_is order n past o /\ from_system n ws past.

  Lemma ap_clean_step order ifc mu n ws (o : obj) d x : good_solver -> length ws = n -> 0 <= ifc -> 0 <= mu <= 2 ->
    ap_clean order ifc mu n ws o -> length x = n -> d = Rdot ws x ->
    ap_clean order ifc mu n ws (fst (adapt d x o)) /\ distsq (o_w (fst (adapt d x o))) ws <= distsq (o_w o) ws.
  Proof.
    intros HS Hws Hi Hm (Hwf & Hinv & past & HM & Hp) Hl Hd.
    assert (Hp' : from_system n ws (past ++ [(d, x)])).
    { intros t u H. apply in_app_or in H as [H|[[= <- <-]|[]]]; auto. }
    split.
    - split; [destruct (adapt_ok n o d x Hwf Hl) as (o1 & r & -> & H & _); exact H|].
      split; [eapply ap_inv_adapt; eauto|]. exists (past ++ [(d, x)]). split; auto. apply memory_push; auto.
    - destruct (adapt_ok n o d x Hwf Hl) as (o' & r & HA & _ & _ & _ & Hr). rewrite HA. cbn [fst].
      destruct Hr as [->|(ex & _ & _ & Hr)]; [|rewrite Hr; lra].
      destruct (ap_step_state order ifc mu n o past d x o' HS Hwf Hinv HM) as (G & HX & HD & Hw & HG & HAG & Hw'); auto.
      { intros t u H; apply (Hp t u H). }
      set (St := stored order n (past ++ [(d, x)])) in *. rewrite Hw'.
      apply (st_dist order n (map snd St) G (map fst St) (o_w o) mu ifc HX HD Hw HG HAG ws Hws); auto.
      unfold mv. rewrite map_map. apply map_ext_in. intros (t & u) H. cbn [fst snd].
      change (Rdot u ws = t). unfold St, stored in H. apply window_In in H as [H|H].
      + rewrite Rdot_comm. symmetry. apply (Hp' t u H).
      + injection H as -> ->. apply Rdot_zero_l.
  Qed.

  Lemma ap_clean_loop order ifc mu n ws : good_solver -> length ws = n -> 0 <= ifc -> 0 <= mu <= 2 ->
    forall d x (o : obj), ap_clean order ifc mu n ws o -> rowsl n x -> from_system n ws (fed_loop d x o) ->
    ap_clean order ifc mu n ws (fst (adapt_all d x o)) /\ distsq (o_w (fst (adapt_all d x o))) ws <= distsq (o_w o) ws.
  Proof.
    intros HS Hws Hi Hm d; induction d as [|d0 d IH]; intros [|x0 x] o HC Hx Hf;
      [split; [exact HC|apply Rle_refl]|split; [exact HC|apply Rle_refl]|split; [exact HC|apply Rle_refl]|].
    pose proof (Forall_inv Hx) as Hx0. pose proof (Forall_inv_tail Hx) as Hx'. cbv beta in Hx0. cbn [fed_loop adapt_all] in *.
    destruct (ap_clean_step order ifc mu _ ws o d0 x0 HS Hws Hi Hm HC Hx0) as (H1 & H2).
    { apply (Hf d0 x0). left; reflexivity. }
    unfold bind. destruct (adapt d0 x0 o) as [o1 [[]|ex]]; cbn [fst] in *; [|auto].
    destruct (IH x o1 H1 Hx') as (H3 & H4); [intros t u H; apply Hf; right; exact H|].
    split; auto. lra.
  Qed.

  Lemma ap_clean_run order ifc mu n ws : good_solver -> length ws = n -> 0 <= ifc -> 0 <= mu <= 2 ->
    forall d x (o : obj), ap_clean order ifc mu n ws o -> rowsl n x -> from_system n ws (fed_run d x o) ->
    ap_clean order ifc mu n ws (fst (run d x o)) /\ distsq (o_w (fst (run d x o))) ws <= distsq (o_w o) ws.
  Proof.
    intros HS Hws Hi Hm d x o HC Hx Hf. unfold fed_run in Hf.
    destruct (Nat.eqb_spec (length d) (length x)) as [Hl|Hl].
    - destruct x as [|x0 x]; [destruct d; [split; [exact HC|apply Rle_refl]|discriminate]|].
      pose proof (proj1 HC) as Hwf.
      destruct (run_fst n o d (x0 :: x) Hwf Hx Hl) as (h & ->); [discriminate|].
      exact (ap_clean_loop order ifc mu n ws HS Hws Hi Hm d (x0 :: x) o HC Hx Hf).
    - rewrite run_bad_length by assumption. split; [exact HC|apply Rle_refl].
  Qed.

  Lemma ap_clean_exec order ifc mu n ws : good_solver -> length ws = n -> 0 <= ifc -> 0 <= mu <= 2 ->
    forall p (o : obj), ap_clean order ifc mu n ws o -> op_shape n p -> from_system n ws (fed p o) ->
    ap_clean order ifc mu n ws (exec p o) /\ distsq (o_w (exec p o)) ws <= distsq (o_w o) ws.
  Proof.
    intros HS Hws Hi Hm p o HC Hs Hf. destruct p as [x|d x|d x|d x nt ep]; cbn [exec op_shape fed] in *.
    - assert (Hoc : is_OCNLMS o = false).
      { destruct HC as (_ & (HC & _) & _); unfold ap_config in HC; unfold is_OCNLMS; destruct (o_ext o); auto; contradiction. }
      rewrite predict_plain by exact Hoc. split; [exact HC|apply Rle_refl].
    - apply ap_clean_step; auto. apply (Hf d x). left; reflexivity.
    - apply ap_clean_run; auto.
    - unfold pretrained_run. set (N := ntrunc _) in *. clearbody N.
      assert (H1 : rowsl n (slice_to x N)) by (apply (firstn_rows (T := R)); exact Hs).
      assert (H2 : rowsl n (slice_from x N)) by (apply (skipn_rows (T := R)); exact Hs).
      revert H1 H2 Hf. generalize (slice_to x N), (slice_from x N), (slice_to d N), (slice_from d N). clear x d Hs nt N.
      intros x1 x2 d1 d2 H1 H2. revert o HC.
      induction ep as [|ep IH]; intros o HC Hf; cbn [repeat_m fed_pretrained] in *.
      + unfold bind, ret. apply ap_clean_run; auto.
      + destruct (ap_clean_run order ifc mu n ws HS Hws Hi Hm d1 x1 o HC H1) as (H3 & H4).
        { intros t u H; apply Hf, in_or_app; auto. }
        unfold bind in *. destruct (run d1 x1 o) as [o' [v|ex]]; cbn [fst] in *; [|split; [exact H3|exact H4]].
        unfold ret at 1. cbv beta iota. destruct (IH o' H3) as (H5 & H6).
        { intros t u H; apply Hf, in_or_app; right; exact H. }
        split; [exact H5|]. eapply Rle_trans; [exact H6|exact H4].
  Qed.

  (** whatever the history, no call (adapt, run, pretrained_run; successful or not) whose samples come from the
      linear system ws moves the weights away from ws *)
  Theorem C24_never_away : forall rng (kw : kwargs R) n (o : obj) ps p order mu ifc ws,
    good_solver -> rng_ok rng -> sane_kw kw -> kw_n kw = Some (Z.of_nat n) ->
    kw_mu kw = Some mu -> kw_order kw = Some order -> kw_ifc kw = Some ifc -> 0 <= ifc -> 0 <= mu <= 2 ->
    new_filter rng KAP kw = Ok o -> Forall (op_shape n) (ps ++ [p]) -> length ws = n ->
    (forall t u, In (t, u) (fed_all (ps ++ [p]) o) -> t = Rdot ws u) ->
    distsq (o_w (exec p (exec_all ps o))) ws <= distsq (o_w (exec_all ps o)) ws.
  Proof.
    intros rng kw n o ps p order mu ifc ws HS Hrng Hkw Hn Hmu Hor Hif Hi Hm Ho HF Hws Hnf.
    apply Forall_app in HF as (HF & HFp). inversion HFp as [|? ? Hp _]; subst.
    destruct (ap_history rng kw _ o ps mu order ifc Hrng Hkw Hn Hmu Hor Hif Ho HF) as (Hwf & Hinv & HM).
    assert (E : forall ps (o : obj), fed_all (ps ++ [p]) o = fed_all ps o ++ fed p (exec_all ps o)).
    { clear. intros ps; induction ps as [|q ps IH]; intros o; cbn [app fed_all exec_all fold_left]; [rewrite app_nil_r; reflexivity|].
      rewrite IH, app_assoc. reflexivity. }
    rewrite E in Hnf.
    apply (ap_clean_exec order ifc mu _ ws HS eq_refl Hi Hm p (exec_all ps o)); auto.
    - split; [auto|]. split; [auto|]. exists (fed_all ps o). split; auto.
      intros t u H; split; [apply Hnf, in_or_app; auto|eapply fed_all_shape; eauto].
    - intros t u H; split; [apply Hnf, in_or_app; auto|eapply fed_shape; eauto].
  Qed.

  (** inside a run: row by row *)
  Theorem C24_never_away_run : forall rng (kw : kwargs R) n (o o' : obj) ps d x y e w order mu ifc ws,
    good_solver -> rng_ok rng -> sane_kw kw -> kw_n kw = Some (Z.of_nat n) ->
    kw_mu kw = Some mu -> kw_order kw = Some order -> kw_ifc kw = Some ifc -> 0 <= ifc -> 0 <= mu <= 2 ->
    new_filter rng KAP kw = Ok o -> Forall (op_shape n) ps -> rows_of n x -> length ws = n ->
    (forall t u, In (t, u) (fed_all ps o) -> t = Rdot ws u) -> noise_free ws d x ->
    run d x (exec_all ps o) = (o', Ok (y, e, w)) ->
    length w = length x /\ never_away ws w (o_w o').
  Proof.
    intros rng kw n o o' ps d x y e w order mu ifc ws HS Hrng Hkw Hn Hmu Hor Hif Hi Hm Ho HF Hx Hws Hnf Hnf' HR.
    destruct (ap_history rng kw _ o ps mu order ifc Hrng Hkw Hn Hmu Hor Hif Ho HF) as (Hwf & Hinv & HM).
    destruct (run_lengths solve n _ o' d x y e w Hwf Hx HR) as (Hl & Hne & _ & _ & Hlw & _ & _ & _ & HO & _).
    split; [auto|]. intros k Hk. rewrite Hlw in Hk.
    assert (HC : ap_clean order ifc mu n ws (exec_all ps o)).
    { split; [auto|]. split; [auto|]. exists (fed_all ps o). split; auto.
      intros t u H; split; [apply Hnf; auto|eapply fed_all_shape; eauto]. }
    destruct (run_inv n (ap_clean order ifc mu n ws) (fun d x => d = Rdot ws x)) with (d := d) (x := x) (o := exec_all ps o) (k := k)
      as (HCk & _); auto; [|lia|].
    { intros o1 d1 x1 H1 H2 H3 H4 _. apply (ap_clean_step order ifc mu n ws o1 d1 x1); auto. }
    destruct (run_step solve n _ o' d x y e w k Hwf Hx HR Hk) as (s & s' & Hs & _ & Es & _ & Ha & Hw & Hw' & _ & _ & Hlx).
    rewrite <- Es in HCk.
    destruct (ap_clean_step order ifc mu n ws s (nth k d 0) (nth k x []) HS Hws Hi Hm HCk Hlx (Hnf' k Hk)) as (_ & Hd).
    rewrite Ha in Hd. cbn [fst] in Hd. rewrite Hw, Hw' in Hd. exact Hd.
  Qed.

  (** without regularisation the filter cannot start: while fewer than [order] samples have been given, every
      adapt raises LinAlgError and leaves the weights alone *)
  Theorem C24_unregularised_start_refuted : forall rng (kw : kwargs R) n (o : obj) ps d x order mu,
    good_solver -> rng_ok rng -> sane_kw kw -> kw_n kw = Some (Z.of_nat n) ->
    kw_mu kw = Some mu -> kw_order kw = Some order -> kw_ifc kw = Some 0 ->
    new_filter rng KAP kw = Ok o -> Forall (op_shape n) ps -> length x = n ->
    (S (length (fed_all ps o)) < order)%nat ->
    snd (adapt d x (exec_all ps o)) = Err LinAlgError /\ o_w (fst (adapt d x (exec_all ps o))) = o_w (exec_all ps o).
  Proof.
    intros rng kw n o ps d x order mu HS Hrng Hkw Hn Hmu Hor Hif Ho HF Hl Hlt.
    destruct (ap_history rng kw n o ps mu order 0 Hrng Hkw Hn Hmu Hor Hif Ho HF) as (Hwf & Hinv & HM).
    destruct (adapt_ok n _ d x Hwf Hl) as (o' & r & HA & _ & _ & _ & Hr). rewrite HA. cbn [fst snd].
    destruct Hr as [Hr|(ex & -> & Hs & Hw)].
    2:{ split; auto. f_equal. destruct Hinv as (HC & _). unfold ap_config in HC. unfold soft_exn in Hs.
        destruct (o_ext (exec_all ps o)); try contradiction. exact Hs. }
    exfalso. rewrite Hr in HA.
    destruct (ap_step_history rng kw n o ps d x o' mu order 0 HS Hrng Hkw Hn Hmu Hor Hif Ho HF Hl HA)
      as (G & HX & _ & _ & HG & HAG & _).
    set (St := stored order n (fed_all ps o ++ [(d, x)])) in *.
    set (i := (order - 1)%nat). assert (Hi : (i < order)%nat) by (unfold i; lia).
    assert (Hz : nth i (map snd St : rmat) [] = repeat 0 n).
    { rewrite (map_nth_lt _ _ _ (0, [])) by (unfold St, stored; rewrite window_length; auto).
      unfold St, stored, window. rewrite nth_firstn by auto. rewrite app_nth2.
      - rewrite (nth_indep _ _ (0, repeat 0 n)).
        + rewrite nth_repeat. reflexivity.
        + rewrite repeat_length. lia.
      - rewrite rev_length, app_length. cbn [length]. unfold i; lia. }
    pose proof (gram_shape order n _ HX) as HGs.
    pose proof (mscale_shape solve order order 0 (identity order) (identity_shape solve order)) as HI.
    assert (HAs : shape order order (map2 (map2 Rplus) (gram (map snd St)) (mscale 0 (identity order)))) by (apply map2m_shape; auto).
    assert (E : ent (mm order (map2 (map2 Rplus) (gram (map snd St)) (mscale 0 (identity order))) G) i i = 1).
    { rewrite HAG. rewrite identity_ent by auto. rewrite Nat.eqb_refl. reflexivity. }
    rewrite mm_nth in E by (auto; destruct HAs as (HAs & _); rewrite HAs; exact Hi).
    rewrite (Rdot_sumn order) in E.
    2:{ apply (shape_row order order); auto. }
    2:{ rewrite column_len. apply HG. }
    rewrite (sumn_ext order _ (fun _ => 0)) in E; [rewrite sumn_0 in E; lra|].
    intros j Hj.
    match goal with |- nth j (nth i ?M []) 0 * _ = 0 => change (nth j (nth i M []) 0) with (ent M i j) end.
    rewrite (map2m_ent order order) by auto.
    assert (E1 : ent (gram (map snd St)) i j = 0).
    { unfold ent, gram. rewrite (map_nth_lt _ _ _ ([] : rvec)) by (destruct HX as (HX & _); rewrite HX; auto).
      rewrite (map_nth_lt _ _ _ ([] : rvec)) by (destruct HX as (HX & _); rewrite HX; auto). rewrite Hz. apply Rdot_zero_l. }
    assert (E2 : ent (mscale 0 (identity order)) i j = 0).
    { unfold ent, mscale. rewrite (map_nth_lt _ _ _ ([] : rvec)) by (rewrite (proj1 (identity_shape solve order)); auto).
      unfold vscale. change (@nmul R (RNum solve) 0) with (Rmult 0). fold (vsc 0 (nth i (identity order : rmat) [])).
      rewrite nth_vsc. ring. }
    rewrite E1, E2. ring.
  Qed.

  (** ** C25 *)
  (** np.linalg.solve is exact division on 1 x 1 systems *)
  Definition solves_1x1 : Prop := forall a b, a <> 0 -> solve [[a]] [[b]] = Some [[b / a]].

  Lemma ap1_step eps mu n (o : obj) past d x : solves_1x1 -> wf n o -> ap_inv 1 eps mu o -> memory_is 1 n past o ->
    length x = n -> eps + Rdot x x <> 0 ->
    snd (adapt d x o) = Ok tt /\
    o_w (fst (adapt d x o)) = vadd (o_w o) (vsc (mu / (eps + normsq x) * (d - Rdot (o_w o) x)) x).
  Proof.
    intros HS Hwf Hinv HM Hl Hne.
    pose proof (ap_update_state 1 eps mu n o past d x Hwf Hinv HM Hl) as HU. cbv zeta in HU.
    rewrite !map_app in HU. cbn [map fst snd] in HU. rewrite !window_push in HU by lia.
    cbn [firstn Nat.sub] in HU.
    assert (EA : map2 (map2 nadd) (map (fun a : rvec => map (fun b : rvec => ndot a b) [x]) [x]) (mscale eps (identity 1))
                 = [[eps + normsq x]] :> list rvec).
    { cbn. unfold normsq. f_equal. f_equal. ring. }
    rewrite EA in HU. change (identity 1 : rmat) with [[1]] in HU.
    change (nsolve [[eps + normsq x]] [[1]]) with (solve [[eps + normsq x]] [[1]]) in HU.
    rewrite HS in HU by exact Hne. destruct HU as (H1 & H2). split; [exact H1|]. rewrite H2.
    change (vadd (o_w o) (vsc mu (mv (transpose n [x]) [1 / (eps + normsq x) * (d - Rdot x (o_w o)) + 0])) =
            vadd (o_w o) (vsc (mu / (eps + normsq x) * (d - Rdot (o_w o) x)) x)).
    f_equal. set (c := 1 / (eps + normsq x) * (d - Rdot x (o_w o)) + 0).
    assert (E : mv (transpose n [x]) [c] = vsc c x).
    { apply nth_ext0.
      - rewrite mv_len, transpose_len, vsc_length; auto.
      - intros i Hi. rewrite mv_len, transpose_len in Hi. rewrite (mv_nth solve) by (rewrite transpose_len; auto).
        rewrite transpose_nth by auto. rewrite nth_vsc. unfold column. cbn [map Rdot].
        change (nth i x 0 * c + 0 = c * nth i x 0). ring. }
    rewrite E. apply nth_ext0; [rewrite !vsc_length; auto|]. intros i _. rewrite !nth_vsc. unfold c.
    rewrite (Rdot_comm x). field. exact Hne.
  Qed.

  Theorem C25_order1_is_NLMS : forall rng (kw : kwargs R) n (o1 o2 : obj) ps mu eps d x,
    solves_1x1 -> rng_ok rng -> sane_kw kw -> kw_n kw = Some (Z.of_nat n) ->
    kw_mu kw = Some mu -> kw_order kw = Some 1%nat -> kw_ifc kw = Some eps ->
    new_filter rng KAP kw = Ok o2 -> Forall (op_shape n) ps ->
    reachable n o1 -> o_ext o1 = XNLMS eps -> o_mu o1 = mu -> o_w o1 = o_w (exec_all ps o2) ->
    rows_of n x -> (forall u, In u x -> eps + Rdot u u <> 0) ->
    snd (run d x o1) = snd (run d x (exec_all ps o2)) /\
    (forall r, snd (run d x o1) = Ok r -> o_w (fst (run d x o1)) = o_w (fst (run d x (exec_all ps o2)))).
  Proof.
    intros rng kw n o1 o2' ps mu eps d x HS Hrng Hkw Hn Hmu Hor Hif Ho HF Hr1 E1 Hmu1 Hw Hx Hne.
    destruct (ap_history rng kw n o2' ps mu 1 eps Hrng Hkw Hn Hmu Hor Hif Ho HF) as (Hwf2 & Hinv2 & HM2).
    apply reachable_wf in Hr1. set (o2 := exec_all ps o2') in *. clearbody o2.
    destruct (Nat.eq_dec (length d) (length x)) as [Hl|Hl].
    2:{ rewrite !run_bad_length by assumption. split; [reflexivity|discriminate]. }
    destruct x as [|x0 x'] eqn:Ex; [destruct d; [|discriminate]; rewrite !run_empty; split; [reflexivity|discriminate]|].
    rewrite <- Ex in *. assert (Hnil : x <> []) by congruence. clear Ex x0 x'.
    set (Rel := fun a b : obj => wf n a /\ wf n b /\ o_w b = o_w a /\ o_ext a = XNLMS eps /\ o_mu a = mu /\
                  ap_inv 1 eps mu b /\ exists past, memory_is 1 n past b).
    assert (HRel : Rel o1 o2) by (repeat split; try apply Hr1; try apply Hwf2; try apply Hinv2; eauto).
    destruct (run_rel n n Rel (fun _ u => eps + Rdot u u <> 0) (fun a => a) (fun v => v) (fun v => v)) with
      (o1 := o1) (o2 := o2) (d := d) (x := x) as (H1 & H2); auto.
    - intros a b H; destruct H as (A & B & C & _); auto.
    - intros a b d1 x1 (A & B & C & D1 & D2 & D3 & past & D4) Hlx HP. split; [auto|].
      assert (Hoa : is_OCNLMS a = false) by (unfold is_OCNLMS; rewrite D1; auto).
      assert (Hob : is_OCNLMS b = false).
      { destruct D3 as (D3 & _); unfold ap_config in D3; unfold is_OCNLMS; destruct (o_ext b); auto; contradiction. }
      split; [rewrite !(pred_out_R solve n) by auto; rewrite C; reflexivity|].
      destruct (ap1_step eps mu n b past d1 x1 HS B D3 D4 Hlx HP) as (S1 & S2).
      assert (Ha : adapt d1 x1 a = (set_w (vadd (o_w a) (vsc (mu / (eps + normsq x1) * (d1 - Rdot (o_w a) x1)) x1)) a, Ok tt)).
      { apply (adapt_textbook solve a d1 x1); [rewrite Hlx; symmetry; apply A|]. rewrite D1, D2. reflexivity. }
      rewrite S1, Ha. split; [reflexivity|]. intros _. cbn [fst].
      split; [|split; [|split; [|split; [|split; [|split]]]]].
      + destruct A as (A1 & A2 & A3). split; [|split]; cbn [set_w o_w o_n o_ext]; auto.
        apply vadd_length; [auto|rewrite vsc_length; auto].
      + destruct (adapt_ok n b d1 x1 B Hlx) as (b1 & r & -> & H & _). exact H.
      + cbn [set_w o_w]. rewrite <- C. exact S2.
      + exact D1.
      + exact D2.
      + eapply ap_inv_adapt; eauto.
      + exists (past ++ [(d1, x1)]). apply memory_push; auto.
    - intros k Hk. apply Hne. apply nth_In; auto.
    - rewrite !map_id in H1, H2.
      assert (Hid : rmap (fun '(y, e, w) => (map (fun a : R => a) y, map (fun a : R => a) e, map (fun v : rvec => v) w)) (snd (run d x o1)) = snd (run d x o1)).
      { destruct (snd (run d x o1)) as [[[y e] w]|]; simpl; [rewrite !map_id|]; reflexivity. }
      rewrite Hid in H1. split; [auto|].
      intros r Hrr. rewrite (run_snd n) in Hrr by auto.
      assert (HO : snd (adapt_all d x o1) = Ok tt) by (destruct (snd (adapt_all d x o1)) as [[]|]; [reflexivity|discriminate]).
      destruct (run_fst n o1 d x Hr1 Hx Hl Hnil) as (h1 & ->). destruct (run_fst n o2 d x Hwf2 Hx Hl Hnil) as (h2 & ->).
      destruct (H2 HO) as (_ & _ & HW & _). symmetry. exact HW.
  Qed.
End Props.

(** *** The hypotheses can be met: Cramer's rule for systems of size 1 and 2 *)
Definition rsolve (A B : list rvec) : option (list rvec) :=
  match A, B with
  | [[a]], [[b]] => if Req_EM_T a 0 then None else Some [[b / a]]
  | [[a; b]; [c; d]], [[p; q]; [r; s]] =>
      let det := a * d - b * c in
      if Req_EM_T det 0 then None
      else Some [[(d * p - b * r) / det; (d * q - b * s) / det]; [(a * r - c * p) / det; (a * s - c * q) / det]]
  | _, _ => None
  end.
#[local] Hint Extern 0 (Num R) => exact (RNum rsolve) : typeclass_instances.

Example rsolve_1x1 : solves_1x1 rsolve.
Proof. intros a b Ha. unfold rsolve. destruct (Req_EM_T a 0); [contradiction|reflexivity]. Qed.

Example rsolve_good : good_solver rsolve.
Proof.
  intros k A B G (HA & HA') (HB & HB') HS.
  destruct A as [|ra A]; [discriminate|]. destruct B as [|rb B]; [cbn in HA, HB; lia|].
  pose proof (Forall_inv HA') as Hra. pose proof (Forall_inv HB') as Hrb. cbv beta in Hra, Hrb.
  destruct k as [|[|[|k]]]; try discriminate.
  - destruct A; [|discriminate]. destruct B; [|discriminate].
    destruct ra as [|a [|]]; try discriminate. destruct rb as [|b [|]]; try discriminate.
    unfold rsolve in HS. destruct (Req_EM_T a 0) as [|Ha]; [discriminate|]. injection HS as <-.
    split; [split; [reflexivity|repeat constructor]|].
    unfold mm, transpose, column. cbn. f_equal. f_equal. field. exact Ha.
  - destruct A as [|ra' A]; [discriminate|]. destruct A; [|discriminate]. destruct B as [|rb' B]; [discriminate|]. destruct B; [|discriminate].
    pose proof (Forall_inv (Forall_inv_tail HA')) as Hra'. pose proof (Forall_inv (Forall_inv_tail HB')) as Hrb'. cbv beta in Hra', Hrb'.
    destruct ra as [|a [|b [|]]]; try discriminate. destruct rb as [|p [|q [|]]]; try discriminate.
    destruct ra' as [|c [|d [|]]]; try discriminate. destruct rb' as [|r [|s [|]]]; try discriminate.
    unfold rsolve in HS. destruct (Req_EM_T (a * d - b * c) 0) as [|Hdet]; [discriminate|]. injection HS as <-.
    split; [split; [reflexivity|repeat constructor]|].
    unfold mm, transpose, column. cbn. repeat f_equal; field; exact Hdet.
  - exfalso. destruct A as [|ra' [|ra'' A]]; try discriminate.
    destruct ra as [|a [|b [|c ra]]]; cbn in Hra; try discriminate.
Qed.

Definition apR_kw (order : nat) (mu ifc : R) : kwargs R :=
  mkKw (Some 2%Z) (Some mu) (Some (WVec [1; 1])) None None None None None (Some order) (Some ifc) None false.
Definition apR (order : nat) (mu ifc : R) : obj R :=
  mkObj [1; 1] 2 mu None
    (XAP order (zeros2 2 order) (zeros order) (mscale ifc (identity order)) (identity order) [] []).
Example apR_new : forall rng order mu ifc, new_filter rng KAP (apR_kw order mu ifc) = Ok (apR order mu ifc).
Proof. reflexivity. Qed.

(** order 2, mu = 1, ifc = 0: the first sample raises, the second is projected on both equations *)
Example C24_hypotheses : sane_kw (apR_kw 2 1 0) /\
  Forall (op_shape 2) [OpAdapt 2 [1; 0]] /\
  fed_all [OpAdapt 2 [1; 0]] (apR 2 1 0) = [(2, [1; 0])] /\
  snd (adapt 2 [1; 0] (apR 2 1 0)) = Err LinAlgError /\
  exists o', adapt 3 [1; 1] (exec_all [OpAdapt 2 [1; 0]] (apR 2 1 0)) = (o', Ok tt) /\ o_w o' = [2; 1].
Proof.
  split; [split; intros m [= <-]; lia|]. split; [repeat constructor|]. split; [reflexivity|].
  assert (E1 : adapt 2 [1; 0] (apR 2 1 0) =
    (set_ext (XAP 2 [[1; 0]; [0; 0]] [2; 0] (mscale 0 (identity 2)) (identity 2) [1 * 1 + (0 * 1 + 0); 0 * 1 + (0 * 1 + 0)] [2 - (1 * 1 + (0 * 1 + 0)); 0 - (0 * 1 + (0 * 1 + 0))]) (apR 2 1 0), Err LinAlgError)).
  { rewrite (adapt_AP_step 2 (apR 2 1 0) 2 [1; 0] 2 (zeros2 2 2) (zeros 2) (mscale 0 (identity 2)) (identity 2) [] []); [|repeat split; repeat constructor|reflexivity|reflexivity].
    cbn. destruct (Req_EM_T _ 0) as [|H]; [reflexivity|exfalso; apply H; ring]. }
  split; [rewrite E1; reflexivity|].
  cbn [exec_all fold_left exec]. rewrite E1. cbn [fst].
  set (o1 := set_ext _ _).
  eexists. split.
  - eapply eq_trans; [apply (adapt_AP_step 2 o1 3 [1; 1] 2 [[1; 0]; [0; 0]] [2; 0] (mscale 0 (identity 2)) (identity 2) [1 * 1 + (0 * 1 + 0); 0 * 1 + (0 * 1 + 0)] [2 - (1 * 1 + (0 * 1 + 0)); 0 - (0 * 1 + (0 * 1 + 0))]); [repeat split; repeat constructor|reflexivity|reflexivity]|].
    cbn. destruct (Req_EM_T _ 0) as [H|H]; [exfalso; revert H; lra|reflexivity].
  - cbn [set_w o_w mv map Rdot]. unfold mv. cbn. f_equal; [|f_equal]; field; lra.
Qed.

Example C25_hypotheses : sane_kw (apR_kw 1 1 1) /\ new_filter rngR KAP (apR_kw 1 1 1) = Ok (apR 1 1 1) /\
  exists o1 : obj R, reachable 2 o1 /\ o_ext o1 = XNLMS 1 /\ o_mu o1 = 1 /\ o_w o1 = o_w (apR 1 1 1).
Proof.
  split; [split; intros m [= <-]; lia|]. split; [reflexivity|].
  exists (mkObj [1; 1] 2 1 None (XNLMS 1)). split; [|auto].
  apply (reach_new 2 rngR KNLMS (mkKw (Some 2%Z) (Some 1) (Some (WVec [1; 1])) (Some 1) None None None None None None None false)).
  - intros k; apply repeat_length.
  - split; intros m Hm; discriminate.
  - reflexivity.
  - reflexivity.
Qed.
