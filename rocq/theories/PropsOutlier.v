(** C109: how much one wrong target can do to the weights (exact real arithmetic). *)
From Coq Require Import Reals Lra Psatz.
From Verif Require Import Py Num Numpy Filters Registry Spec StructProofs RunProofs Reach RVec RFilter Steps RMat
  PropsStability PropsAlgebra PropsNoise PropsTracking PropsAPMem PropsAP PropsAPConverge PropsAPNoise PropsRLS PropsRLSRate PropsGMCC.
Open Scope R_scope.

Section S.
  Variable solve : list rvec -> list rvec -> option (list rvec).
  #[local] Hint Extern 0 (Num R) => exact (RNum solve) : typeclass_instances.
  Notation obj := (obj R).

  (** ** Specification *)
  (** at this input a single target can move the weights as far as one likes (and the call succeeds) *)
  Definition ruinable (o : obj) (x : rvec) : Prop :=
    forall M, exists d o', adapt d x o = (o', Ok tt) /\ M < dist (o_w o') (o_w o).
  (** at this input no target moves the weights by more than B *)
  Definition resistant (o : obj) (x : rvec) (B : R) : Prop :=
    forall d, exists o', adapt d x o = (o', Ok tt) /\ dist (o_w o') (o_w o) <= B.
  (** the filter is learning at this input: its step size is not zero and no division by zero happens *)
  Definition learning (o : obj) (x : rvec) : Prop :=
    match o_ext o with
    | XLMS | XLMF => o_mu o <> 0
    | XNLMS eps | XNLMF eps | XGNGD eps _ _ _ => o_mu o <> 0 /\ eps + normsq x <> 0
    | XAng _ _ _ _ _ mu | XBenveniste _ _ _ _ mu | XMathews _ _ _ mu => mu <> 0
    | _ => False
    end.
  (** bound on the influence of one target *)
  Definition influence_bound (o : obj) (x : rvec) : R :=
    match o_ext o with
    | XSSLMS => Rabs (o_mu o) * sqrt (INR (length x))
    | XNSSLMS eps => Rabs (o_mu o / (eps + normsq x)) * sqrt (INR (length x))
    | XLlncosh _ => Rabs (o_mu o) * norm x
    | XGMCC lambd alpha => Rabs (o_mu o) * alpha * (1 + lambd) * norm x
    | _ => 0
    end.

  (** ** Unlimited influence *)
  Lemma moved w g v n : length w = n -> length v = n -> dist (vadd w (vsc g v)) w = Rabs g * norm v.
  Proof.
    intros Lw Lv. rewrite dist_norm, <- norm_vsc. f_equal. apply nth_ext0.
    - rewrite (vsub_length _ _ n), vsc_length; auto. apply vadd_length; rewrite ?vsc_length; auto.
    - intros i _. rewrite nth_vsub by (rewrite (vadd_length _ _ n); rewrite ?vsc_length; auto). rewrite nth_vadd by (rewrite vsc_length; congruence). ring.
  Qed.
  Lemma norm_gt v : normsq v <> 0 -> 0 < norm v.
  Proof. intros H. apply sqrt_lt_R0. pose proof (normsq_nonneg v). lra. Qed.

  Lemma ruin n (o : obj) x v (g : R -> R) : length (o_w o) = n -> length v = n -> normsq v <> 0 ->
    (forall d, exists o', adapt d x o = (o', Ok tt) /\ o_w o' = vadd (o_w o) (vsc (g d) v)) -> (forall M, exists d, M < Rabs (g d)) -> ruinable o x.
  Proof.
    intros Lw Lv Hv Hs Hg M. pose proof (norm_gt v Hv) as P. destruct (Hg (M / norm v)) as (d & Hd). destruct (Hs d) as (o' & HA & HW).
    exists d, o'. split; [exact HA|]. rewrite HW, (moved _ _ _ n) by auto. apply Rmult_lt_reg_r with (/ norm v); [apply Rinv_0_lt_compat; exact P|].
    rewrite Rmult_assoc, Rinv_r by lra. rewrite Rmult_1_r. exact Hd.
  Qed.

  (** polynomials in the error *)
  Lemma unb_lin a y : a <> 0 -> forall M, exists d, M < Rabs (a * (d - y)).
  Proof.
    intros Ha M. exists (y + (Rabs M + 1) / a). replace (a * (y + (Rabs M + 1) / a - y)) with (Rabs M + 1) by (field; exact Ha).
    pose proof (Rle_abs M). rewrite Rabs_right by (pose proof (Rabs_pos M); lra). lra.
  Qed.
  Lemma unb_cub a y : a <> 0 -> forall M, exists d, M < Rabs (a * (d - y) ^ 3).
  Proof.
    intros Ha M. set (t := 1 + Rabs M / Rabs a). assert (Pa : 0 < Rabs a) by (apply Rabs_pos_lt; exact Ha). pose proof (Rabs_pos M) as PM.
    assert (Q : 0 <= Rabs M / Rabs a) by (apply Rmult_le_pos; [exact PM|left; apply Rinv_0_lt_compat; exact Pa]). assert (T1 : 1 <= t) by (unfold t; lra).
    exists (y + t). replace (y + t - y) with t by ring. rewrite Rabs_mult, (Rabs_right (t ^ 3)) by (apply Rle_ge, pow_le; lra).
    assert (t <= t ^ 3). { replace (t ^ 3) with (t * (t * t)) by ring. rewrite <- (Rmult_1_r t) at 1. apply Rmult_le_compat_l; [lra|]. replace 1 with (1 * 1) by ring. apply Rmult_le_compat; lra. }
    pose proof (Rle_abs M). apply Rlt_le_trans with (Rabs a * t); [replace (Rabs a * t) with (Rabs a + Rabs M) by (unfold t; field; lra); lra|apply Rmult_le_compat_l; lra].
  Qed.
  Lemma unb_quad a b y : a <> 0 -> forall M, exists d, M < Rabs ((a + b * (d - y)) * (d - y)).
  Proof.
    intros Ha M. (* one of e and -e *)
    set (e := (Rabs M + 1) / a). set (q := b * (e * e)).
    assert (Pe : a * e = Rabs M + 1) by (unfold e; field; exact Ha). pose proof (Rle_abs M) as LM. pose proof (Rabs_pos M) as PM.
    destruct (Rle_lt_dec 0 q) as [Q|Q].
    - exists (y + e). replace (y + e - y) with e by ring. replace ((a + b * e) * e) with (a * e + q) by (unfold q; ring). rewrite Rabs_right by lra. lra.
    - exists (y + - e). replace (y + - e - y) with (- e) by ring. replace ((a + b * - e) * - e) with (- (a * e - q)) by (unfold q; ring). rewrite Rabs_Ropp, Rabs_right by lra. lra.
  Qed.
  Lemma unb_pole mu A c y : mu <> 0 -> A <> 0 -> forall M, exists d, M < Rabs (mu / (A - c * (d - y)) * (d - y)).
  Proof.
    intros Hm HA M. destruct (Req_dec c 0) as [->|Hc].
    - destruct (unb_lin (mu / A) y) with (M := M) as (d & Hd); [unfold Rdiv; apply Rmult_integral_contrapositive_currified; auto using Rinv_neq_0_compat|].
      exists d. rewrite Rmult_0_l, Rminus_0_r. exact Hd.
    - (* e = (A - del) / c makes the denominator del; with del = A / K the quotient is (mu / c) (K - 1) *)
      set (k := mu / c). assert (Hk : k <> 0) by (unfold k, Rdiv; apply Rmult_integral_contrapositive_currified; auto using Rinv_neq_0_compat).
      assert (Pk : 0 < Rabs k) by (apply Rabs_pos_lt; exact Hk). set (T := Rabs M / Rabs k + 1). set (K := T + 1).
      pose proof (Rabs_pos M) as PM. pose proof (Rle_abs M) as LM. assert (PT : 1 <= T). { unfold T. assert (0 <= Rabs M / Rabs k) by (apply Rmult_le_pos; [exact PM|left; apply Rinv_0_lt_compat; exact Pk]). lra. }
      assert (PK : 2 <= K) by (unfold K; lra). exists (y + (A - A / K) / c). replace (y + (A - A / K) / c - y) with ((A - A / K) / c) by ring.
      replace (mu / (A - c * ((A - A / K) / c)) * ((A - A / K) / c)) with (k * T).
      + rewrite Rabs_mult, (Rabs_right T) by lra. unfold T. rewrite Rmult_plus_distr_l. replace (Rabs k * (Rabs M / Rabs k)) with (Rabs M) by (field; lra). lra.
      + assert (NK : K <> 0) by lra. replace (A - c * ((A - A / K) / c)) with (A / K) by (field; auto). unfold k. replace T with (K - 1) by (unfold K; ring). clearbody K. clear - Hc HA NK. field. auto.
  Qed.

  Lemma text_step n (o : obj) x (g : R -> R) : wf n o -> length x = n -> (forall e, textbook (o_ext o) (o_mu o) e x = Some (vsc (g e) x)) ->
    forall d, exists o', adapt d x o = (o', Ok tt) /\ o_w o' = vadd (o_w o) (vsc (g (d - Rdot (o_w o) x)) x).
  Proof.
    intros Hwf Lx Ht d. eexists. split; [eapply adapt_textbook; [rewrite Lx; symmetry; apply Hwf|apply Ht]|reflexivity].
  Qed.

  Theorem C109_unlimited : forall n (o : obj) x, reachable n o -> length x = n -> normsq x <> 0 -> learning o x -> ruinable o x.
  Proof.
    intros n o x Hr Lx Nx HL. pose proof (reachable_wf n o Hr) as Hwf. assert (Lw : length (o_w o) = n) by apply Hwf. unfold learning in HL. pose proof (Hwf) as (_ & _ & HE).
    destruct (o_ext o) eqn:E; try contradiction.
    - apply (ruin n o x x (fun d => o_mu o * (d - Rdot (o_w o) x))); auto; [|apply unb_lin; exact HL]. apply (text_step n o x (fun e => o_mu o * e)); auto. intros e. rewrite E. reflexivity.
    - apply (ruin n o x x (fun d => o_mu o * (d - Rdot (o_w o) x) ^ 3)); auto; [|apply unb_cub; exact HL]. apply (text_step n o x (fun e => o_mu o * e ^ 3)); auto. intros e. rewrite E. reflexivity.
    - destruct HL as (Hm & Hd). apply (ruin n o x x (fun d => o_mu o / (eps + normsq x) * (d - Rdot (o_w o) x))); auto.
      + apply (text_step n o x (fun e => o_mu o / (eps + normsq x) * e)); auto. intros e. rewrite E. reflexivity.
      + apply unb_lin. unfold Rdiv. apply Rmult_integral_contrapositive_currified; auto using Rinv_neq_0_compat.
    - destruct HL as (Hm & Hd). apply (ruin n o x x (fun d => o_mu o / (eps + normsq x) * (d - Rdot (o_w o) x) ^ 3)); auto.
      + apply (text_step n o x (fun e => o_mu o / (eps + normsq x) * e ^ 3)); auto. intros e. rewrite E. reflexivity.
      + apply unb_cub. unfold Rdiv. apply Rmult_integral_contrapositive_currified; auto using Rinv_neq_0_compat.
    - destruct HL as (Hm & Hd). set (c := ro * o_mu o * last_e * Rdot x last_x / (normsq last_x + eps) ^ 2).
      apply (ruin n o x x (fun d => o_mu o / ((eps + normsq x) - c * (d - Rdot (o_w o) x)) * (d - Rdot (o_w o) x))); auto; [|apply unb_pole; auto].
      intros d. eexists. split; [apply (adapt_GNGD n o d x eps ro last_e last_x Hwf Lx E)|]. cbn [set_w o_w].
      match goal with |- context [vscale ?a x] => change (map2 nadd (o_w o) (vscale a x)) with (vadd (o_w o) (vsc a x)) end. f_equal. f_equal.
      match goal with |- ?l = ?r => change (o_mu o / ((eps - ro * o_mu o * (d - Rdot (o_w o) x) * last_e * Rdot x last_x / (normsq last_x + eps) ^ 2) + normsq x) * (d - Rdot (o_w o) x) = r) end.
      f_equal. f_equal. unfold c, Rdiv. ring.
    - set (fi := map2 Rplus (vsc a last_fi) (vsc last_e last_x)). set (b := ro * Rdot last_x fi).
      apply (ruin n o x x (fun d => (last_mu + b * (d - Rdot (o_w o) x)) * (d - Rdot (o_w o) x))); auto; [|apply unb_quad; auto].
      intros d. eexists. split; [apply (adapt_Ang n o d x ro a last_e last_x last_fi last_mu Hwf Lx E)|]. cbn [set_w o_w].
      match goal with |- ?l = ?r => change (vadd (o_w o) (vsc ((last_mu + ro * (d - Rdot (o_w o) x) * Rdot last_x fi) * (d - Rdot (o_w o) x)) x) = r) end.
      f_equal. f_equal. unfold b. ring.
    - set (fi := ben_fi n last_mu last_e last_x last_fi : rvec). set (b := ro * Rdot last_x fi).
      apply (ruin n o x x (fun d => (last_mu + b * (d - Rdot (o_w o) x)) * (d - Rdot (o_w o) x))); auto; [|apply unb_quad; auto].
      intros d. eexists. split; [apply (adapt_Benveniste n o d x ro last_e last_x last_fi last_mu Hwf Lx E)|]. cbn [set_w o_w].
      match goal with |- ?l = ?r => change (vadd (o_w o) (vsc ((last_mu + ro * (d - Rdot (o_w o) x) * Rdot last_x fi) * (d - Rdot (o_w o) x)) x) = r) end.
      f_equal. f_equal. unfold b. ring.
    - set (b := ro * last_e * Rdot last_x x).
      apply (ruin n o x x (fun d => (last_mu + b * (d - Rdot (o_w o) x)) * (d - Rdot (o_w o) x))); auto; [|apply unb_quad; auto].
      intros d. eexists. split; [apply (adapt_Mathews n o d x ro last_e last_x last_mu Hwf Lx E)|]. cbn [set_w o_w].
      match goal with |- ?l = ?r => change (vadd (o_w o) (vsc ((last_mu + ro * (d - Rdot (o_w o) x) * last_e * Rdot last_x x) * (d - Rdot (o_w o) x)) x) = r) end.
      f_equal. f_equal. unfold b. ring.
  Qed.

  (** RLS: at any point of any data record with a non-zero input *)
  Theorem C109_unlimited_RLS : forall rng (kw : kwargs R) n (o : obj) eps R0 d x k, rng_ok rng -> sane_kw kw -> kw_n kw = Some (Z.of_nat n) ->
    new_filter rng KRLS kw = Ok o -> o_ext o = XRLS eps R0 -> 0 < o_mu o -> 0 < eps -> rows_of n x -> length d = length x ->
    (k < length x)%nat -> normsq (nth k x []) <> 0 -> ruinable (state_after k d x o) (nth k x []).
  Proof.
    intros rng kw n o eps R0 d x k Hrng Hkw Hn Ho E Hmu Heps Hx Hl Hk Nx. pose proof (new_filter_wf rng KRLS kw n o Hrng Hkw Hn Ho) as Hwf.
    destruct (new_RLS solve rng kw n o Ho Hn) as (eps' & E'). assert (eps' = eps) by congruence. subst eps'.
    destruct (rls_states solve n o d x eps Hwf Hx Hl E' Hmu Heps k ltac:(lia)) as (W & Em & R1 & E1 & I1 & _). set (s := state_after k d x o) in *.
    set (z := nth k x []) in *. assert (Lz : length z = n) by (apply nth_rows; auto).
    assert (Hxi : forall i, (i < length x)%nat -> length (nth i x []) = n) by (intros; apply nth_rows; auto).
    pose proof (inverse_S solve (o_mu o) eps x n Hmu Heps Hxi k R1 Hk I1) as (HR & Hs & _ & H2). fold z in HR, Hs, H2. set (v := mv (rls_R (o_mu o) R1 z) z) in *.
    assert (Lv : length v = n) by (unfold v; rewrite (mv_len solve); apply HR).
    apply (ruin n s z v (fun t => t - Rdot (o_w s) z)).
    - apply W.
    - exact Lv.
    - intros Z. apply Nx. specialize (Hs z (Aop (o_mu o) eps x (S k) z) Lz).
      assert (LA : length (Aop (o_mu o) eps x (S k) z) = n) by (apply (A_len (o_mu o) eps x n Hxi (S k) z); [lia|exact Lz]).
      specialize (Hs LA). rewrite H2 in Hs by exact Lz. fold v in Hs. unfold normsq. rewrite Hs, Rdot_comm. apply normsq_zero_dot. exact Z.
    - intros t. eexists. split; [apply (adapt_RLS n s t z eps R1 W Lz E1)|].
      + rewrite Em. change (Reqb (o_mu o) 0 = false). unfold Reqb. destruct (Req_EM_T (o_mu o) 0); [lra|reflexivity].
      + cbn [set_w o_w]. rewrite Em. unfold vadd, vsc. change (map2 Rplus (o_w s) (map (fun a => a * (t - Rdot (o_w s) z)) v) = map2 Rplus (o_w s) (map (fun a => (t - Rdot (o_w s) z) * a) v)). f_equal. apply map_ext. intros a. apply Rmult_comm.
    - intros M. destruct (unb_lin 1 (Rdot (o_w s) z) ltac:(lra) M) as (t & Ht). exists t. rewrite Rmult_1_l in Ht. exact Ht.
  Qed.

  (** OCNLMS: if the target has any influence at all *)
  Theorem C109_unlimited_OCNLMS : forall n (o : obj) x, reachable n o -> length x = n -> is_OCNLMS o = true ->
    (exists d1 d2, o_w (fst (adapt d1 x o)) <> o_w (fst (adapt d2 x o))) -> ruinable o x.
  Proof.
    intros n o x Hr Lx HO (d1 & d2 & Hd). pose proof (reachable_wf n o Hr) as Hwf. assert (Lw : length (o_w o) = n) by apply Hwf. unfold is_OCNLMS in HO.
    destruct (o_ext o) eqn:E; try discriminate. pose proof (fun d => adapt_OCNLMS n o d x _ _ _ _ _ _ Hwf Lx E) as HA. cbv zeta in HA.
    set (y := oc_y n (o_w o) mem_empty mem_x mem_d mem_idx x : R) in *.
    set (v := map2 nsub x _ : rvec) in HA. set (c := o_mu o / (eps + Rdot v v)).
    assert (HW : forall d, exists o', adapt d x o = (o', Ok tt) /\ o_w o' = vadd (o_w o) (vsc (c * (d - y)) v)) by (intros d; eexists; split; [apply HA|reflexivity]).
    assert (HW2 : forall d, o_w (fst (adapt d x o)) = vadd (o_w o) (vsc (c * (d - y)) v)) by (intros d; destruct (HW d) as (o' & -> & Ew); exact Ew).
    rewrite !HW2 in Hd.
    assert (Lv : length v = n).
    { unfold v. apply map2_length_eq; [exact Lx|apply oc_read_length]. }
    apply (ruin n o x v (fun d => c * (d - y))); auto.
    - intros Z. apply Hd. apply normsq_zero in Z. rewrite Z. assert (Z2 : forall a m, vsc a (repeat 0 m) = repeat 0 m). { intros a m. unfold vsc. induction m; cbn; [reflexivity|]. rewrite IHm, Rmult_0_r. reflexivity. } rewrite !Z2. reflexivity.
    - apply unb_lin. intros Z. apply Hd. rewrite Z, !Rmult_0_l. reflexivity.
  Qed.

  (** AP with regularisation: after any history *)
  Lemma mv_bound (X : rmat) g : normsq (mv X g) <= sumn (length X) (fun i => normsq (nth i X [])) * normsq g.
  Proof.
    unfold normsq at 1. rewrite (Rdot_sumn (length X)) by apply (mv_len solve). rewrite <- sumn_scal_r. apply sumn_le. intros i Hi. rewrite (mv_nth solve) by exact Hi.
    pose proof (Cauchy_Schwarz (nth i X []) g). lra.
  Qed.
  Theorem C109_unlimited_AP : forall rng (kw : kwargs R) n (o : obj) ps x mu order ifc,
    good_solver solve -> complete_solver solve order -> rng_ok rng -> sane_kw kw -> kw_n kw = Some (Z.of_nat n) ->
    kw_mu kw = Some mu -> kw_order kw = Some order -> kw_ifc kw = Some ifc -> 0 < ifc -> mu <> 0 ->
    new_filter rng KAP kw = Ok o -> Forall (op_shape n) ps -> length x = n -> normsq x <> 0 -> ruinable (exec_all ps o) x.
  Proof.
    intros rng kw n o ps x mu order ifc HS HC Hrng Hkw Hn Hmu Hor Hif Hi Nm Ho HF Lx Nx M.
    assert (Ho1 : (1 <= order)%nat) by (apply (proj2 Hkw); exact Hor). destruct order as [|m]; [lia|]. clear Ho1.
    set (s := exec_all ps o). set (w := o_w s : rvec).
    set (rest := firstn m (rev (fed_all ps o) ++ repeat (0, repeat 0 n) (S m))).
    assert (ES : forall d, stored (S m) n (fed_all ps o ++ [(d, x)]) = (d, x) :: rest).
    { intros d. unfold stored, window. rewrite rev_app_distr. reflexivity. }
    set (X := x :: map snd rest : rmat). set (F := sumn (length X) (fun i => normsq (nth i X []))). set (C := Rdot (mv (map snd rest) x) (errors w rest)).
    (* if the move is at most M then the error is bounded *)
    assert (Key : forall d o', adapt d x s = (o', Ok tt) -> dist (o_w o') w <= M -> (d - Rdot x w) * normsq x + C <= (ifc * norm x + norm (mv X x) * sqrt F) * (M / Rabs mu)).
    { intros d o' HA HM. destruct (ap_step_history solve rng kw n o ps d x o' mu (S m) ifc HS Hrng Hkw Hn Hmu Hor Hif Ho HF Lx HA) as (G & HX & HD & Hw & HG & HAG & Hw').
      rewrite ES in HX, HD, HAG, Hw'. cbn [map fst snd] in HX, HD, HAG, Hw'. fold s w X in HX, HD, Hw, HAG, Hw'. 
      set (nu := vsub (d :: map fst rest) (mv X w)) in *. assert (Ln : length nu = S m) by (apply vsub_length; [exact HD|rewrite (mv_len solve); apply HX]).
      change (mv (transpose n X) (mv G nu)) with (inc solve n X G nu) in Hw'. destruct (inc_len solve (S m) n X G HG nu Ln) as (Lg & Lz). pose proof (inc_eq solve (S m) n X G mu ifc HX HG HAG nu Ln) as EQ.
      set (g := inc solve n X G nu) in *. set (z := mv G nu) in *. rewrite Hw', (moved w mu g n Hw Lg) in HM.
      assert (Pm : 0 < Rabs mu) by (apply Rabs_pos_lt; exact Nm).
      assert (Hg : norm g <= M / Rabs mu). { apply Rmult_le_reg_l with (Rabs mu); [exact Pm|]. replace (Rabs mu * (M / Rabs mu)) with M by (field; lra). exact HM. }
      assert (LX : forall u, length (mv X u) = S m) by (intros; rewrite (mv_len solve); apply HX).
      assert (Adj : Rdot (mv X x) z = Rdot x g). { rewrite Rdot_comm, (Rdot_comm x). exact (mv_adjoint solve (S m) n X z x HX Lz Lx). }
      assert (E1 : Rdot (mv X x) nu = Rdot (mv X x) (mv X g) + ifc * Rdot x g).
      { rewrite EQ at 1. rewrite Rdot_vadd_r by (rewrite ?vsc_length, ?LX; auto). rewrite Rdot_vsc_r, Adj. reflexivity. }
      assert (E2 : Rdot (mv X x) nu = (d - Rdot x w) * normsq x + C).
      { unfold C. rewrite (errors_vsub solve). unfold nu, X, mv, normsq. cbn [map].
        match goal with |- ?l = ?r => change (Rdot x x * (d - Rdot x w) + Rdot (mv (map snd rest) x) (vsub (map fst rest) (mv (map snd rest) w)) = r) end.
        rewrite (Rmult_comm (Rdot x x)). reflexivity. }
      rewrite <- E2, E1. pose proof (abs_dot' (mv X x) (mv X g)) as B1. pose proof (abs_dot' x g) as B2. pose proof (Rle_abs (Rdot (mv X x) (mv X g))) as B3. pose proof (Rle_abs (Rdot x g)) as B4.
      assert (B5 : norm (mv X g) <= sqrt F * norm g).
      { unfold norm. rewrite <- sqrt_mult; [apply sqrt_le_1; [apply normsq_nonneg| |apply mv_bound]| |apply normsq_nonneg].
        - apply Rmult_le_pos; [apply sumn_nonneg; intros; apply normsq_nonneg|apply normsq_nonneg].
        - apply sumn_nonneg; intros; apply normsq_nonneg. }
      pose proof (norm_pos (mv X x)) as P1. pose proof (norm_pos x) as P2. pose proof (sqrt_pos F) as P3. pose proof (norm_pos g) as P4.
      assert (norm (mv X x) * norm (mv X g) <= norm (mv X x) * (sqrt F * (M / Rabs mu))) by (apply Rmult_le_compat_l; [exact P1|]; eapply Rle_trans; [exact B5|apply Rmult_le_compat_l; auto]).
      assert (ifc * Rdot x g <= ifc * (norm x * (M / Rabs mu))) by (apply Rmult_le_compat_l; [lra|]; eapply Rle_trans; [exact B4|]; eapply Rle_trans; [exact B2|apply Rmult_le_compat_l; auto]).
      lra. }
    set (K := (ifc * norm x + norm (mv X x) * sqrt F) * (M / Rabs mu)) in *.
    set (d := Rdot x w + (K - C + 1) / normsq x).
    pose proof (C58_AP_never_raises solve rng kw n o ps d x mu (S m) ifc HC Hrng Hkw Hn Hmu Hor Hif Hi Ho HF Lx) as HR. fold s in HR.
    destruct (adapt d x s) as (o' & r) eqn:HA. cbn [snd] in HR. subst r. exists d, o'. split; [exact HA|]. apply Rnot_le_lt. intros HM. specialize (Key d o' HA HM).
    replace ((d - Rdot x w) * normsq x) with (K - C + 1) in Key by (unfold d; field; exact Nx). lra.
  Qed.

  (** ** Limited influence *)
  Lemma sgn_le a : Rabs (Rsgn a) <= 1.
  Proof. unfold Rsgn, Rabs. repeat (destruct (Rlt_dec _ _)); repeat (destruct (Rcase_abs _)); lra. Qed.
  Lemma bounded_entries n w u C : length w = n -> length u = n -> 0 <= C -> (forall i, (i < n)%nat -> Rabs (nth i u 0) <= C) -> dist (vadd w u) w <= C * sqrt (INR n).
  Proof.
    intros Lw Lu HC Hu. rewrite dist_norm. replace (vsub (vadd w u) w) with u.
    - unfold norm. rewrite <- (sqrt_square C HC) at 1. rewrite <- sqrt_mult by (try apply pos_INR; apply Rmult_le_pos; exact HC). apply sqrt_le_1; [apply normsq_nonneg|apply Rmult_le_pos; [apply Rmult_le_pos; exact HC|apply pos_INR]|].
      rewrite Rmult_comm, <- Lu. apply normsq_le. intros i Hi. apply Hu. congruence.
    - apply nth_ext0; [rewrite (vsub_length _ _ n); auto using vadd_length|]. intros i _. rewrite nth_vsub by (rewrite (vadd_length _ _ n); auto). rewrite nth_vadd by congruence. ring.
  Qed.
  (** the gain of GMCC for the error size h, without mu and alpha *)
  Lemma gmcc_bell la al h p : 0 <= la -> 0 <= p <= al -> 0 < al -> 0 <= h -> 0 <= la * (exp (- la * Rpowf h al) * Rpowf h p) <= 1 + la.
  Proof.
    intros Hla Hp Hal Hh. pose proof (Rpowf_nonneg h al) as N1. pose proof (Rpowf_nonneg h p) as N2. pose proof (exp_pos (- la * Rpowf h al)) as PE.
    assert (Z : 0 <= la * Rpowf h al) by (apply Rmult_le_pos; auto).
    assert (E1 : exp (- la * Rpowf h al) <= 1). { rewrite <- exp_0. destruct Z as [Z|Z]; [left; apply exp_increasing; lra|right; f_equal; lra]. }
    split; [apply Rmult_le_pos; [exact Hla|apply Rmult_le_pos; lra]|]. destruct (Rle_lt_dec h 1) as [H1|H1].
    - assert (Rpowf h p <= 1). { replace 1 with (Rpowf 1 p) by (rewrite Rpowf_pos by lra; unfold Rpower; rewrite ln_1, Rmult_0_r, exp_0; reflexivity). apply Rpowf_mono; lra. }
      assert (exp (- la * Rpowf h al) * Rpowf h p <= 1 * 1) by (apply Rmult_le_compat; lra). assert (la * (exp (- la * Rpowf h al) * Rpowf h p) <= la * 1) by (apply Rmult_le_compat_l; lra). lra.
    - assert (L : Rpowf h p <= Rpowf h al). { rewrite !Rpowf_pos by lra. apply Rle_Rpower; lra. }
      pose proof (t_exp (la * Rpowf h al) Z) as T. assert (E2 : exp (- (la * Rpowf h al / 2)) <= 1). { rewrite <- exp_0. destruct Z as [Z|Z]; [left; apply exp_increasing; lra|right; f_equal; lra]. }
      replace (- (la * Rpowf h al)) with (- la * Rpowf h al) in T by ring.
      assert (la * (exp (- la * Rpowf h al) * Rpowf h p) <= la * (exp (- la * Rpowf h al) * Rpowf h al)) by (apply Rmult_le_compat_l; [exact Hla|apply Rmult_le_compat_l; lra]). lra.
  Qed.

  Definition gmcc_gain (mu la al e : R) : R := mu * la * al * exp (- la * Rpowf (Rabs e) al) * Rpowf (Rabs e) (al - 1) * Rsgn e.
  Lemma gmcc_gain_le mu la al e : 0 <= la -> 1 <= al -> Rabs (gmcc_gain mu la al e) <= Rabs mu * al * (1 + la).
  Proof.
    intros Hla Hal. unfold gmcc_gain. pose proof (gmcc_bell la al (Rabs e) (al - 1) Hla ltac:(lra) ltac:(lra) (Rabs_pos e)) as (B0 & B).
    set (b := la * (exp (- la * Rpowf (Rabs e) al) * Rpowf (Rabs e) (al - 1))) in *.
    replace (mu * la * al * exp (- la * Rpowf (Rabs e) al) * Rpowf (Rabs e) (al - 1) * Rsgn e) with (mu * (al * b) * Rsgn e) by (unfold b; ring).
    rewrite !Rabs_mult, (Rabs_right al), (Rabs_right b) by lra. pose proof (sgn_le e). pose proof (Rabs_pos mu). pose proof (Rabs_pos (Rsgn e)).
    assert (al * b <= al * (1 + la)) by (apply Rmult_le_compat_l; lra). assert (0 <= al * b) by (apply Rmult_le_pos; lra).
    assert (Rabs mu * (al * b) <= Rabs mu * (al * (1 + la))) by (apply Rmult_le_compat_l; lra).
    assert (Rabs mu * (al * b) * Rabs (Rsgn e) <= Rabs mu * (al * b) * 1) by (apply Rmult_le_compat_l; [apply Rmult_le_pos; lra|lra]). lra.
  Qed.

  Theorem C109_limited : forall n (o : obj) x, reachable n o -> length x = n ->
    match o_ext o with XSSLMS | XNSSLMS _ | XLlncosh _ => True | XGMCC lambd alpha => 0 <= lambd /\ 1 <= alpha | _ => False end ->
    resistant o x (influence_bound o x).
  Proof.
    intros n o x Hr Lx HC d. pose proof (reachable_wf n o Hr) as Hwf. assert (Lw : length (o_w o) = n) by apply Hwf. unfold influence_bound.
    destruct (o_ext o) eqn:E; try contradiction.
    - eexists. split; [eapply adapt_textbook; [congruence|rewrite E; reflexivity]|]. cbn [set_w o_w]. rewrite Lx. apply bounded_entries; auto; [rewrite map_length; exact Lx|apply Rabs_pos|].
      intros i Hi. rewrite (map_nth_lt _ _ _ 0) by congruence. rewrite !Rabs_mult. pose proof (sgn_le (nth i x 0)). pose proof (sgn_le (d - Rdot (o_w o) x)).
      pose proof (Rabs_pos (o_mu o)) as P. pose proof (Rabs_pos (Rsgn (nth i x 0))). pose proof (Rabs_pos (Rsgn (d - Rdot (o_w o) x))).
      rewrite Rmult_assoc. rewrite <- (Rmult_1_r (Rabs (o_mu o))) at 2. apply Rmult_le_compat_l; [exact P|]. replace 1 with (1 * 1) by ring. apply Rmult_le_compat; lra.
    - eexists. split; [eapply adapt_textbook; [congruence|rewrite E; reflexivity]|]. cbn [set_w o_w]. rewrite Lx. apply bounded_entries; auto; [rewrite map_length; exact Lx|apply Rabs_pos|].
      intros i Hi. rewrite (map_nth_lt _ _ _ 0) by congruence. rewrite !Rabs_mult. pose proof (sgn_le (nth i x 0)). pose proof (sgn_le (d - Rdot (o_w o) x)).
      pose proof (Rabs_pos (o_mu o / (eps + normsq x))) as P. pose proof (Rabs_pos (Rsgn (nth i x 0))). pose proof (Rabs_pos (Rsgn (d - Rdot (o_w o) x))).
      rewrite Rmult_assoc. rewrite <- (Rmult_1_r (Rabs (o_mu o / (eps + normsq x)))) at 2. apply Rmult_le_compat_l; [exact P|]. replace 1 with (1 * 1) by ring. apply Rmult_le_compat; lra.
    - destruct (text_step n o x (gmcc_gain (o_mu o) lambd alpha) Hwf Lx) with (d := d) as (o' & HA & HW); [intros e; rewrite E; reflexivity|].
      exists o'. split; [exact HA|]. rewrite HW, (moved _ _ _ n) by auto. apply Rmult_le_compat_r; [apply norm_pos|]. apply gmcc_gain_le; apply HC.
    - destruct (text_step n o x (fun e => o_mu o * tanh (lambd * e)) Hwf Lx) with (d := d) as (o' & HA & HW); [intros e; rewrite E; reflexivity|].
      exists o'. split; [exact HA|]. rewrite HW, (moved _ _ _ n) by auto. apply Rmult_le_compat_r; [apply norm_pos|]. rewrite Rabs_mult. rewrite <- (Rmult_1_r (Rabs (o_mu o))) at 2.
      apply Rmult_le_compat_l; [apply Rabs_pos|left; apply tanh_abs_lt1].
  Qed.

  (** ** Runs in which some targets are wrong *)
  (** the samples k with bad k = true have any target, the others the target of ws *)
  Definition corrupted (bad : nat -> bool) (ws : rvec) (d : rvec) (x : list rvec) : Prop :=
    forall k, (k < length x)%nat -> bad k = false -> nth k d 0 = Rdot ws (nth k x []).
  (** the total size of the inputs of the wrong samples among the first k *)
  Definition exposure (bad : nat -> bool) (x : list rvec) (k : nat) : R := sumn k (fun i => if bad i then norm (nth i x []) else 0).

  Lemma corrupted_run n (o o' : obj) d x y e w ws bad (g : R -> R) C : reachable n o -> rows_of n x -> run d x o = (o', Ok (y, e, w)) -> length ws = n ->
    (forall e v, textbook (o_ext o) (o_mu o) e v = Some (vsc (g e) v)) -> (forall e, Rabs (g e) <= C) -> corrupted bad ws d x ->
    (forall k e, (k < length x)%nat -> bad k = false -> 0 <= g e * (2 * e - g e * normsq (nth k x []))) ->
    forall k, (k <= length x)%nat -> dist (wrow w (o_w o') k) ws <= dist (o_w o) ws + C * exposure bad x k.
  Proof.
    intros Hr Hx HR Lws Ht HC Hcor Hst. pose proof (reachable_wf n o Hr) as Hwf.
    assert (Hl : length d = length x). { destruct (Nat.eq_dec (length d) (length x)) as [|Hc]; auto. rewrite run_bad_length in HR by assumption; discriminate. }
    assert (Hne : x <> []) by (intros ->; destruct d; discriminate).
    assert (HT : forall e v, textbook (o_ext o) (o_mu o) e v <> None) by (intros e0 v0; rewrite Ht; discriminate).
    induction k as [|k IH]; intros Hk.
    - destruct (run_step solve n o o' d x y e w 0 Hwf Hx HR) as (s & s' & _ & _ & Es & _ & _ & Ew & _); [destruct x; [congruence|cbn; lia]|]. rewrite <- Ew, Es. unfold exposure. cbn [sumn]. rewrite Rmult_0_r, Rplus_0_r. apply Rle_refl.
    - specialize (IH ltac:(lia)). destruct (run_textbook solve n o o' d x y e w k Hwf Hx HT HR ltac:(lia)) as (dw & Htb & Hrow & Hy & He & L1 & L2).
      rewrite Ht in Htb. injection Htb as <-. set (W := wrow w (o_w o') k) in *. set (v := nth k x []) in *. set (ek := nth k e 0) in *.
      unfold exposure. cbn [sumn]. fold (exposure bad x k). rewrite Hrow. destruct (bad k) eqn:B.
      + eapply Rle_trans; [apply (dist_triangle _ W _ n); auto; apply vadd_length; rewrite ?vsc_length; auto|]. rewrite (moved W (g ek) v n) by auto.
        assert (Rabs (g ek) * norm v <= C * norm v) by (apply Rmult_le_compat_r; [apply norm_pos|apply HC]). fold v. lra.
      + rewrite Rplus_0_r. eapply Rle_trans; [|exact IH]. unfold dist. apply sqrt_le_1; try apply normsq_nonneg.
        rewrite (distsq_step W v ws (nth k d 0) (g ek)) by (try congruence; apply Hcor; auto). replace (nth k d 0 - Rdot W v) with ek by (rewrite He, Hy; reflexivity).
        specialize (Hst k ek ltac:(lia) B). fold v in Hst. lra.
  Qed.

  (** each wrong target costs at most mu |x|, however wrong it is, as long as the step is stable for the right ones *)
  Theorem C109_Llncosh : forall n (o o' : obj) d x y e w ws bad lambd, reachable n o -> o_ext o = XLlncosh lambd -> 0 <= o_mu o -> 0 <= lambd -> rows_of n x -> length ws = n ->
    run d x o = (o', Ok (y, e, w)) -> corrupted bad ws d x -> (forall k, (k < length x)%nat -> bad k = false -> o_mu o * lambd * normsq (nth k x []) <= 2) ->
    forall k, (k <= length x)%nat -> dist (wrow w (o_w o') k) ws <= dist (o_w o) ws + o_mu o * exposure bad x k.
  Proof.
    intros n o o' d x y e w ws bad la Hr E Hmu Hla Hx Lws HR Hcor Hst. set (mu := o_mu o) in *.
    apply (corrupted_run n o o' d x y e w ws bad (fun e => mu * tanh (la * e)) mu Hr Hx HR Lws); auto.
    - intros e0 v. rewrite E. reflexivity.
    - intros e0. rewrite Rabs_mult, (Rabs_right mu) by lra. rewrite <- (Rmult_1_r mu) at 2. apply Rmult_le_compat_l; [exact Hmu|left; apply tanh_abs_lt1].
    - intros k e0 Hk B. specialize (Hst k Hk B). set (s := normsq (nth k x [])) in *. assert (S0 : 0 <= s) by apply normsq_nonneg.
      assert (Pos : forall a, 0 <= a -> 0 <= mu * tanh (la * a) * (2 * a - mu * tanh (la * a) * s)).
      { intros a Ha. destruct (tanh_sector la a Hla Ha) as (T1 & T2). assert (G1 : 0 <= mu * tanh (la * a)) by (apply Rmult_le_pos; auto). apply Rmult_le_pos; [exact G1|].
        assert (mu * tanh (la * a) * s <= mu * (la * a) * s) by (apply Rmult_le_compat_r; [exact S0|]; apply Rmult_le_compat_l; auto).
        assert (mu * la * s * a <= 2 * a) by (apply Rmult_le_compat_r; auto). lra. }
      destruct (Rle_lt_dec 0 e0) as [P|P]; [apply Pos; exact P|]. specialize (Pos (- e0) ltac:(lra)). replace (la * - e0) with (- (la * e0)) in Pos by ring. rewrite tanh_opp in Pos. lra.
  Qed.
  Theorem C109_GMCC : forall n (o o' : obj) d x y e w ws bad lambd alpha, reachable n o -> o_ext o = XGMCC lambd alpha -> 0 <= o_mu o -> 0 <= lambd -> 2 <= alpha -> rows_of n x -> length ws = n ->
    run d x o = (o', Ok (y, e, w)) -> corrupted bad ws d x -> (forall k, (k < length x)%nat -> bad k = false -> o_mu o * alpha * (1 + lambd) * normsq (nth k x []) <= 2) ->
    forall k, (k <= length x)%nat -> dist (wrow w (o_w o') k) ws <= dist (o_w o) ws + o_mu o * alpha * (1 + lambd) * exposure bad x k.
  Proof.
    intros n o o' d x y e w ws bad la al Hr E Hmu Hla Hal Hx Lws HR Hcor Hst. set (mu := o_mu o) in *.
    apply (corrupted_run n o o' d x y e w ws bad (gmcc_gain mu la al) (mu * al * (1 + la)) Hr Hx HR Lws); auto.
    - intros e0 v. rewrite E. reflexivity.
    - intros e0. eapply Rle_trans; [apply gmcc_gain_le; lra|]. rewrite (Rabs_right mu) by lra. lra.
    - intros k e0 Hk B. specialize (Hst k Hk B). set (s := normsq (nth k x [])) in *. assert (S0 : 0 <= s) by apply normsq_nonneg.
      (* the gain is q e with 0 <= q <= mu al (1 + la) *)
      destruct (Req_dec e0 0) as [->|Ne].
      { unfold gmcc_gain. replace (Rsgn 0) with 0 by (unfold Rsgn; destruct (Rlt_dec 0 0); [lra|reflexivity]). lra. }
      set (q := mu * al * (la * (exp (- la * Rpowf (Rabs e0) al) * Rpowf (Rabs e0) (al - 2)))).
      destruct (gmcc_bell la al (Rabs e0) (al - 2) Hla ltac:(lra) ltac:(lra) (Rabs_pos e0)) as (B0 & B1).
      assert (Pa : 0 < Rabs e0) by (apply Rabs_pos_lt; exact Ne).
      assert (EQ : gmcc_gain mu la al e0 = q * e0).
      { unfold gmcc_gain, q. assert (EP : Rpowf (Rabs e0) (al - 1) = Rabs e0 * Rpowf (Rabs e0) (al - 2)).
        { rewrite !Rpowf_pos by exact Pa. replace (al - 1) with (1 + (al - 2)) by ring. rewrite Rpower_plus, Rpower_1 by exact Pa. reflexivity. }
        rewrite EP. set (Ex := exp _). set (P2 := Rpowf _ (al - 2)). transitivity (mu * al * (la * (Ex * P2)) * (Rabs e0 * Rsgn e0)); [ring|rewrite abs_sgn; reflexivity]. }
      rewrite EQ. assert (Q0 : 0 <= q) by (apply Rmult_le_pos; [apply Rmult_le_pos; lra|exact B0]).
      assert (Q1 : q <= mu * al * (1 + la)) by (apply Rmult_le_compat_l; [apply Rmult_le_pos; lra|exact B1]).
      assert (q * s <= mu * al * (1 + la) * s) by (apply Rmult_le_compat_r; auto).
      replace (q * e0 * (2 * e0 - q * e0 * s)) with (q * (e0 * e0) * (2 - q * s)) by ring. apply Rmult_le_pos; [apply Rmult_le_pos; [exact Q0|apply Rle_0_sqr]|lra].
  Qed.

  (** any disturbances: a small one counts with its square, a large one with its size only *)
  Theorem C109_Llncosh_noise : forall n (o o' : obj) d x y e w ws lambd, reachable n o -> o_ext o = XLlncosh lambd -> 0 <= o_mu o -> 0 <= lambd -> rows_of n x -> length ws = n ->
    run d x o = (o', Ok (y, e, w)) -> (forall k, (k < length x)%nat -> o_mu o * lambd * normsq (nth k x []) <= 1) ->
    forall k, (k <= length x)%nat ->
      distsq (wrow w (o_w o') k) ws <= distsq (o_w o) ws +
        o_mu o * sumn k (fun i => let v := nth i d 0 - Rdot ws (nth i x []) in Rmin (lambd * v ^ 2) (2 * Rabs v)).
  Proof.
    intros n o o' d x y e w ws la Hr E Hmu Hla Hx Lws HR Hst. pose proof (reachable_wf n o Hr) as Hwf. set (mu := o_mu o) in *.
    assert (Hl : length d = length x). { destruct (Nat.eq_dec (length d) (length x)) as [|Hc]; auto. rewrite run_bad_length in HR by assumption; discriminate. }
    assert (Hne : x <> []) by (intros ->; destruct d; discriminate).
    assert (HT : forall e v, textbook (o_ext o) (o_mu o) e v <> None) by (intros e0 v0; rewrite E; discriminate).
    induction k as [|k IH]; intros Hk.
    - destruct (run_step solve n o o' d x y e w 0 Hwf Hx HR) as (s & s' & _ & _ & Es & _ & _ & Ew & _); [destruct x; [congruence|cbn; lia]|]. rewrite <- Ew, Es. cbn [sumn]. rewrite Rmult_0_r, Rplus_0_r. apply Rle_refl.
    - specialize (IH ltac:(lia)). destruct (run_textbook solve n o o' d x y e w k Hwf Hx HT HR ltac:(lia)) as (dw & Htb & Hrow & Hy & He & L1 & L2).
      rewrite E in Htb. cbn [textbook] in Htb. injection Htb as <-. set (W := wrow w (o_w o') k) in *. set (z := nth k x []) in *. set (ek := nth k e 0) in *. fold mu in Hrow. set (g := mu * tanh (la * ek)) in *.
      cbn [sumn]. fold z. set (v := nth k d 0 - Rdot ws z). cbv zeta. rewrite Hrow, distsq_move by congruence. rewrite Rmult_plus_distr_l. set (s := normsq z). assert (S0 : 0 <= s) by apply normsq_nonneg.
      assert (Ha : Rdot W z - Rdot ws z = v - ek) by (unfold v; rewrite He, Hy; ring). rewrite Ha. specialize (Hst k ltac:(lia)). fold z s in Hst.
      assert (A0 : 0 <= mu * la) by (apply Rmult_le_pos; auto).
      (* the gain: sign and sector *)
      assert (T : Rabs g <= mu). { unfold g. rewrite Rabs_mult, (Rabs_right mu) by lra. rewrite <- (Rmult_1_r mu) at 2. apply Rmult_le_compat_l; [exact Hmu|left; apply tanh_abs_lt1]. }
      assert (G : 0 <= g * ek /\ g * g <= mu * la * (g * ek)).
      { assert (Pos : forall a, 0 <= a -> 0 <= tanh (la * a) * a /\ tanh (la * a) * tanh (la * a) <= la * (tanh (la * a) * a)).
        { intros a Ha'. destruct (tanh_sector la a Hla Ha') as (T1 & T2). split; [apply Rmult_le_pos; auto|]. replace (la * (tanh (la * a) * a)) with (tanh (la * a) * (la * a)) by ring. apply Rmult_le_compat_l; auto. }
        assert (P2 : 0 <= tanh (la * ek) * ek /\ tanh (la * ek) * tanh (la * ek) <= la * (tanh (la * ek) * ek)).
        { destruct (Rle_lt_dec 0 ek) as [P|P]; [apply Pos; exact P|]. specialize (Pos (- ek) ltac:(lra)). replace (la * - ek) with (- (la * ek)) in Pos by ring. rewrite tanh_opp in Pos. lra. }
        unfold g. set (t := tanh (la * ek)) in *. destruct P2 as (P2 & P3). split; [rewrite Rmult_assoc; apply Rmult_le_pos; auto|].
        replace (mu * t * (mu * t)) with (mu * mu * (t * t)) by ring. replace (mu * la * (mu * t * ek)) with (mu * mu * (la * (t * ek))) by ring. apply Rmult_le_compat_l; [apply Rmult_le_pos; auto|exact P3]. }
      destruct G as (G1 & G2).
      assert (Q : g * g * s <= g * ek). { apply Rle_trans with (mu * la * (g * ek) * s); [apply Rmult_le_compat_r; auto|]. replace (mu * la * (g * ek) * s) with (mu * la * s * (g * ek)) by ring. rewrite <- (Rmult_1_l (g * ek)) at 2. apply Rmult_le_compat_r; auto. }
      assert (B1 : 2 * (g * v) <= mu * (2 * Rabs v)).
      { pose proof (Rle_abs (g * v)) as A. rewrite Rabs_mult in A. assert (Rabs g * Rabs v <= mu * Rabs v) by (apply Rmult_le_compat_r; [apply Rabs_pos|exact T]). lra. }
      assert (B2 : - (g * ek) + 2 * (g * v) <= mu * (la * v ^ 2)).
      { destruct A0 as [A0|A0].
        - apply Rmult_le_reg_l with (mu * la); [exact A0|]. pose proof (Rle_0_sqr (g - mu * la * v)) as SQ. unfold Rsqr in SQ.
          replace (mu * la * (mu * (la * v ^ 2))) with (mu * la * v * (mu * la * v)) by ring. lra.
        - rewrite <- A0 in G2. rewrite Rmult_0_l in G2. assert (Zg : g = 0). { apply Rsqr_0_uniq. apply Rle_antisym; [exact G2|apply Rle_0_sqr]. } rewrite Zg. replace (mu * (la * v ^ 2)) with (mu * la * v ^ 2) by ring. rewrite <- A0. lra. }
      assert (B3 : - (g * ek) + 2 * (g * v) <= mu * Rmin (la * v ^ 2) (2 * Rabs v)) by (unfold Rmin; destruct (Rle_dec _ _); lra).
      replace (2 * g * (v - ek)) with (2 * (g * v) - 2 * (g * ek)) by ring. cbv zeta in IH. lra.
  Qed.

  (** ** The hypotheses can be met *)
  Example C109_hypotheses_unlimited : forall mu, mu <> 0 -> exists o1 o2 : obj, reachable 2 o1 /\ reachable 2 o2 /\ normsq [1; 2] <> 0 /\ o_ext o1 = XLMS /\ learning o1 [1; 2] /\ (exists eps, o_ext o2 = XNLMS eps) /\ learning o2 [1; 2].
  Proof.
    intros mu Hm. exists (fresh2 mu XLMS), (fresh2 mu (XNLMS 1)). split; [apply (fresh2_reachable solve mu None None None KLMS); reflexivity|]. split; [apply (fresh2_reachable solve mu (Some 1) None None KNLMS); reflexivity|].
    split; [unfold normsq; cbn [Rdot]; lra|]. split; [reflexivity|]. split; [exact Hm|]. split; [exists 1; reflexivity|]. split; [exact Hm|]. unfold normsq. cbn [Rdot]. lra.
  Qed.
  Example C109_hypotheses_runs : forall t, let x := [[1; 0]; [1; 1]; [0; 1]] in let d := [3; t; 4] in let bad := fun k => Nat.eqb k 1 in
    exists (o1 o1' o2 o2' : obj) y1 e1 w1 y2 e2 w2, reachable 2 o1 /\ o_ext o1 = XLlncosh 3 /\ 0 <= o_mu o1 /\ rows_of 2 x /\ length ws0 = 2%nat /\ run d x o1 = (o1', Ok (y1, e1, w1)) /\
      corrupted bad ws0 d x /\ (forall k, (k < length x)%nat -> o_mu o1 * 3 * normsq (nth k x []) <= 1) /\
      reachable 2 o2 /\ o_ext o2 = XGMCC (1 / 2) 2 /\ 0 <= o_mu o2 /\ run d x o2 = (o2', Ok (y2, e2, w2)) /\ (forall k, (k < length x)%nat -> o_mu o2 * 2 * (1 + 1 / 2) * normsq (nth k x []) <= 2).
  Proof.
    intros t x d bad.
    assert (R1 : reachable 2 (fresh2 (1 / 10) (XLlncosh 3))) by (apply (fresh2_reachable solve (1 / 10) None (Some 3) None KLlncosh); reflexivity).
    assert (R2 : reachable 2 (fresh2 (1 / 10) (XGMCC (1 / 2) 2))) by (apply (fresh2_reachable solve (1 / 10) None (Some (1 / 2)) (Some 2) KGMCC); reflexivity).
    assert (Hx : rows_of (T := R) 2 x) by (repeat constructor).
    destruct (run_exists solve 2 _ d x R1 Hx eq_refl) as (o1' & y1 & e1 & w1 & E1); [discriminate|intros ex He; exact He|].
    destruct (run_exists solve 2 _ d x R2 Hx eq_refl) as (o2' & y2 & e2 & w2 & E2); [discriminate|intros ex He; exact He|].
    exists (fresh2 (1 / 10) (XLlncosh 3)), o1', (fresh2 (1 / 10) (XGMCC (1 / 2) 2)), o2', y1, e1, w1, y2, e2, w2.
    split; [exact R1|]. split; [reflexivity|]. split; [cbn [fresh2 o_mu]; lra|]. split; [exact Hx|]. split; [reflexivity|]. split; [exact E1|]. split.
    { intros [|[|[|k]]] Hk B; cbn in Hk; try lia; try discriminate B; unfold ws0; cbn [nth d x Rdot]; lra. }
    split; [intros [|[|[|k]]] Hk; cbn in Hk; try lia; unfold normsq, x; cbn [nth Rdot fresh2 o_mu]; lra|].
    split; [exact R2|]. split; [reflexivity|]. split; [cbn [fresh2 o_mu]; lra|]. split; [exact E2|].
    intros [|[|[|k]]] Hk; cbn in Hk; try lia; unfold normsq, x; cbn [nth Rdot fresh2 o_mu]; lra.
  Qed.

  Definition kwOC : kwargs R := mkKw (Some 1%Z) (Some 1) (Some (WVec [0])) (Some 1) None None None None None None (Some 4%nat) false.
  Example C109_hypotheses_OCNLMS : exists o : obj, reachable 1 o /\ is_OCNLMS o = true /\ exists d1 d2, o_w (fst (adapt d1 [1] o)) <> o_w (fst (adapt d2 [1] o)).
  Proof.
    assert (Hk : sane_kw kwOC) by (split; intros m E; cbn in E; [injection E as <-; lia|discriminate E]).
    destruct (new_filter rngR KOCNLMS kwOC) as [o|] eqn:Ho; [|cbn in Ho; discriminate].
    exists o. split; [apply (reach_new 1 rngR KOCNLMS kwOC); auto using rngR_ok|]. cbn in Ho. injection Ho as <-. split; [reflexivity|].
    exists 0, 1. cbn. intros E. injection E as E. lra.
  Qed.
End S.

Example C109_hypotheses_RLS : forall solve, exists (o : obj R) R0, sane_kw (kw55 (1 / 2)) /\ new_filter (NT := RNum solve) rngR KRLS (kw55 (1 / 2)) = Ok o /\
  o_ext o = XRLS 1 R0 /\ 0 < o_mu o /\ rows_of (T := R) 2 [[1; 0]; [0; 1]] /\ normsq (nth 1 [[1; 0]; [0; 1]] []) <> 0.
Proof.
  intros solve. destruct (C55_hypotheses solve) as (o & _ & R0 & _ & _ & _ & Hk & _ & Ho & HE & Hm & _ & Hx & _).
  exists o, R0. split; [exact Hk|]. split; [exact Ho|]. split; [exact HE|]. split; [lra|]. split; [exact Hx|]. unfold normsq. cbn [nth Rdot]. lra.
Qed.
Example C109_hypotheses_AP : forall rng, rng_ok rng -> good_solver rsolve /\ complete_solver rsolve 2 /\ sane_kw (apR_kw 2 1 (1 / 2)) /\
  new_filter (NT := RNum rsolve) rng KAP (apR_kw 2 1 (1 / 2)) = Ok (apR 2 1 (1 / 2)) /\ normsq [1; 2] <> 0.
Proof.
  intros rng Hrng. split; [exact rsolve_good|]. split; [exact rsolve_complete|]. split; [split; intros m Hm; cbn in Hm; [discriminate Hm|injection Hm as <-; lia]|].
  split; [apply apR_new|]. unfold normsq. cbn [Rdot]. lra.
Qed.
