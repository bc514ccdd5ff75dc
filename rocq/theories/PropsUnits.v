(** Property C57: change of units; exact real arithmetic. *)
From Coq Require Import Reals Lra Psatz.
From Verif Require Import Py Num Numpy Filters Registry Spec StructProofs RunProofs Reach RVec RFilter Steps RMat
  PropsRegistry PropsStability PropsAlgebra PropsRLS PropsSymmetry PropsAP.
Open Scope R_scope.

(** ** Specification *)
(** The inputs are measured in a unit s times smaller and the targets in a unit t times smaller (all inputs are
    multiplied by s, all targets by t).  How the arguments of the constructors are converted: *)
Definition unit_mu (k : kind) (s t : R) : R :=
  match k with
  | KLMS => 1 / s ^ 2
  | KLMF => 1 / (s ^ 2 * t ^ 2)
  | KSSLMS => t / s
  | KNLMF => 1 / t ^ 2
  | KNSSLMS => s * t
  | KGMCC => t ^ 2 / s ^ 2
  | KLlncosh => t / s ^ 2
  | KAng | KBenveniste | KMathews => 1 / s ^ 2
  | KNLMS | KGNGD | KRLS | KOCNLMS | KAP => 1
  end.
Definition unit_ro (k : kind) (s t : R) : R :=
  match k with KGNGD => s ^ 4 / t ^ 2 | _ => 1 / (s ^ 4 * t ^ 2) end.
Definition unit_lambd (k : kind) (alpha t : R) : R :=
  match k with KGMCC => 1 / Rpower t alpha | _ => 1 / t end.
(** eps and ifc are squares of inputs; alpha, a, order and mem have no unit *)
Definition in_units (k : kind) (s t : R) (kw : kwargs R) : kwargs R :=
  mkKw (kw_n kw) (option_map (Rmult (unit_mu k s t)) (kw_mu kw))
    (match kw_w kw with Some (WVec v) => Some (WVec (vsc (t / s) v)) | q => q end)
    (option_map (Rmult (s ^ 2)) (kw_eps kw)) (option_map (Rmult (unit_ro k s t)) (kw_ro kw)) (kw_a kw)
    (option_map (Rmult (unit_lambd k (opt (kw_alpha kw) 2) t)) (kw_lambd kw)) (kw_alpha kw)
    (kw_order kw) (option_map (Rmult (s ^ 2)) (kw_ifc kw)) (kw_mem kw) (kw_other kw).
(** every argument that has a unit is given (the defaults are fixed numbers) *)
Definition units_given (k : kind) (kw : kwargs R) : Prop :=
  given (kw_mu kw) = true /\ (exists v, kw_w kw = Some (WVec v)) /\
  forall p, In p [Peps; Pro; Plambd; Pifc] -> In p (documented_params k) -> kw_given kw p = true.

Section Units.
  Variable solve : list rvec -> list rvec -> option (list rvec).
  #[local] Hint Extern 0 (Num R) => exact (RNum solve) : typeclass_instances.
  Notation obj := (obj R).

  (** solve(c A, B) = solve(A, B) / c *)
  Definition homogeneous_solver : Prop := forall k c (A B : rmat), 0 < c -> shape k k A -> shape k k B ->
    solve (mscale c A) B = option_map (mscale (/ c)) (solve A B).

  Section Scale.
    Variables (n : nat) (s t : R).
    Hypotheses (Hs : 0 < s) (Ht : 0 < t).
    Let r := t / s.

    Ltac fd := field; repeat split; try apply pow_nonzero; lra.
    Definition ext_units (mu1 mu2 : R) (a b : ext R) : Prop :=
      match a with
      | XBase => b = XBase
      | XLMS => b = XLMS /\ mu2 = unit_mu KLMS s t * mu1
      | XLMF => b = XLMF /\ mu2 = unit_mu KLMF s t * mu1
      | XSSLMS => b = XSSLMS /\ mu2 = unit_mu KSSLMS s t * mu1
      | XNLMS eps => b = XNLMS (s ^ 2 * eps) /\ mu2 = mu1
      | XNLMF eps => b = XNLMF (s ^ 2 * eps) /\ mu2 = unit_mu KNLMF s t * mu1
      | XNSSLMS eps => b = XNSSLMS (s ^ 2 * eps) /\ mu2 = unit_mu KNSSLMS s t * mu1
      | XGMCC la al => b = XGMCC (1 / Rpower t al * la) al /\ mu2 = unit_mu KGMCC s t * mu1
      | XLlncosh la => b = XLlncosh (1 / t * la) /\ mu2 = unit_mu KLlncosh s t * mu1
      | XGNGD eps ro le lx => b = XGNGD (s ^ 2 * eps) (unit_ro KGNGD s t * ro) (t * le) (vsc s lx) /\ mu2 = mu1
      | XRLS eps R1 => mu2 = mu1 /\ exists R2, b = XRLS (s ^ 2 * eps) R2 /\ shape n n R2 /\
          forall v, length v = n -> mv R2 v = vsc (/ s ^ 2) (mv R1 v)
      | XOCNLMS eps mem em mx md idx => b = XOCNLMS (s ^ 2 * eps) mem em (map (vsc s) mx) (vsc t md) idx /\ mu2 = mu1
      | XAng ro a le lx lf lm => b = XAng (unit_ro KAng s t * ro) a (t * le) (vsc s lx) (vsc (s * t) lf) (1 / s ^ 2 * lm)
      | XBenveniste ro le lx lf lm => b = XBenveniste (unit_ro KAng s t * ro) (t * le) (vsc s lx) (vsc (s * t) lf) (1 / s ^ 2 * lm)
      | XMathews ro le lx lm => b = XMathews (unit_ro KAng s t * ro) (t * le) (vsc s lx) (1 / s ^ 2 * lm)
      | XAP order xm dm ii id ym em => mu2 = mu1 /\ exists ym2 em2,
          b = XAP order (mscale s xm) (vsc t dm) (mscale (s ^ 2) ii) id ym2 em2 /\ shape order order ii /\ shape order order id /\ homogeneous_solver
      end.
    Definition units_rel (o1 o2 : obj) : Prop :=
      wf n o1 /\ wf n o2 /\ o_w o2 = vsc r (o_w o1) /\ ext_units (o_mu o1) (o_mu o2) (o_ext o1) (o_ext o2).

    Lemma Rdot_sc2 a b u v : Rdot (vsc a u) (vsc b v) = a * b * Rdot u v.
    Proof. rewrite Rdot_vsc_l, Rdot_vsc_r. ring. Qed.
    Lemma Rpowf_scale z p : 0 <= z -> Rpowf (t * z) p = Rpower t p * Rpowf z p.
    Proof.
      intros Hz. unfold Rpowf. destruct (Req_EM_T z 0) as [->|Hne].
      - rewrite Rmult_0_r. destruct (Req_EM_T 0 0); [|congruence]. destruct (Req_EM_T p 0) as [->|]; [rewrite Rpower_O by auto|]; ring.
      - destruct (Req_EM_T (t * z) 0) as [H|_].
        + exfalso. apply Rmult_integral in H as [H|H]; lra.
        + symmetry. apply Rpower_mult_distr; lra.
    Qed.
    Lemma Rsgn_scale c z : 0 < c -> Rsgn (c * z) = Rsgn z.
    Proof.
      intros Hc. unfold Rsgn.
      destruct (Rlt_dec z 0) as [H|H].
      - destruct (Rlt_dec (c * z) 0) as [|H']; [reflexivity|exfalso; apply H'; nra].
      - destruct (Rlt_dec (c * z) 0) as [H'|H']; [exfalso; apply H; nra|].
        destruct (Rlt_dec 0 z) as [H1|H1]; destruct (Rlt_dec 0 (c * z)) as [H2|H2]; auto; exfalso; [apply H2|apply H1]; nra.
    Qed.
    Lemma div_scale a b c : c <> 0 -> a / (c * b) = / c * (a / b).
    Proof.
      intros Hc. unfold Rdiv. destruct (Req_dec b 0) as [->|Hb]; [|field; auto].
      rewrite Rmult_0_r, Rinv_0. ring.
    Qed.

    Lemma textbook_units c1 c2 mu1 mu2 e x dw : ext_units mu1 mu2 c1 c2 -> textbook c1 mu1 e x = Some dw ->
      textbook c2 mu2 (t * e) (vsc s x) = Some (vsc r dw).
    Proof.
      assert (Hs2 : s ^ 2 <> 0) by (apply pow_nonzero; lra). assert (Ht2 : t ^ 2 <> 0) by (apply pow_nonzero; lra).
      assert (Hd : forall eps c z, c * z / (s ^ 2 * eps + normsq (vsc s x)) = c / s ^ 2 * (z / (eps + normsq x))).
      { intros eps c z. rewrite normsq_vsc. replace (s ^ 2 * eps + s * s * normsq x) with (s ^ 2 * (eps + normsq x)) by ring. rewrite div_scale by auto. unfold Rdiv. ring. }
      destruct c1; cbn [textbook ext_units]; intros H E; try discriminate E; injection E as <-.
      - subst c2. cbn [textbook]. rewrite vsc_length. f_equal. symmetry. apply vsc_repeat0.
      - destruct H as (-> & ->). cbn [textbook]. rewrite !vsc_vsc. f_equal. f_equal. unfold unit_mu, r. fd.
      - destruct H as (-> & ->). cbn [textbook]. rewrite !vsc_vsc. f_equal. f_equal. unfold unit_mu, r. fd.
      - destruct H as (-> & ->). cbn [textbook]. f_equal. unfold vsc. rewrite !map_map. apply map_ext. intros a. rewrite !Rsgn_scale by auto.
        unfold unit_mu, r; fd.
      - destruct H as (-> & ->). cbn [textbook]. rewrite !vsc_vsc. rewrite <- (Rmult_1_l mu1) at 1. rewrite Hd. f_equal. f_equal. generalize (mu1 / (eps + normsq x)); intros q. unfold r. fd.
      - destruct H as (-> & ->). cbn [textbook]. rewrite !vsc_vsc, Hd. f_equal. f_equal. generalize (mu1 / (eps + normsq x)); intros q. unfold unit_mu, r. fd.
      - destruct H as (-> & ->). cbn [textbook]. rewrite Hd. f_equal. unfold vsc. rewrite !map_map. apply map_ext. intros a. rewrite !Rsgn_scale by auto.
        generalize (mu1 / (eps + normsq x)); intros q. unfold unit_mu, r. fd.
      - destruct H as (-> & ->). cbn [textbook]. rewrite !vsc_vsc. f_equal. f_equal.
        rewrite Rabs_mult, (Rabs_right t) by lra. rewrite !Rpowf_scale by apply Rabs_pos. rewrite Rsgn_scale by auto.
        replace (Rpower t (alpha - 1)) with (Rpower t alpha / t).
        2:{ unfold Rminus. rewrite Rpower_plus, Rpower_Ropp, Rpower_1 by auto. reflexivity. }
        assert (Hp : 0 < Rpower t alpha) by apply exp_pos.
        replace (- (1 / Rpower t alpha * lambd) * (Rpower t alpha * Rpowf (Rabs e) alpha)) with (- lambd * Rpowf (Rabs e) alpha) by fd.
        unfold unit_mu, r. fd.
      - destruct H as (-> & ->). cbn [textbook]. rewrite !vsc_vsc. f_equal. f_equal.
        replace (1 / t * lambd * (t * e)) with (lambd * e) by fd. unfold unit_mu, r. fd.
    Qed.

    (** *** the memory of OCNLMS *)
    Lemma mean_vsc c (v : rvec) : mean (vsc c v) = c * mean v.
    Proof.
      unfold mean. rewrite vsc_length. change (@nsum R (RNum solve)) with Rsum. cbn [ndiv RNum]. 
      assert (E : forall u, Rsum (vsc c u) = c * Rsum u) by (induction u as [|a u IH]; cbn; [ring|unfold vsc in IH; rewrite IH; ring]).
      rewrite E. unfold Rdiv. ring.
    Qed.
    Lemma mean0_scale c k (A : rmat) : mean0 k (map (vsc c) A) = vsc c (mean0 k A).
    Proof.
      unfold mean0, transpose, vsc at 2. rewrite !map_map. apply map_ext. intros j. 
      replace (column j (map (vsc c) A)) with (vsc c (column j A)); [apply mean_vsc|].
      unfold column, vsc at 1. rewrite !map_map. apply map_ext. intros v. symmetry. apply (nth_vsc c v j).
    Qed.
    Lemma delete_map_vsc c k (v : rvec) : delete k (vsc c v) = vsc c (delete k v).
    Proof. unfold delete, vsc. rewrite firstn_map, skipn_map, map_app. reflexivity. Qed.
    Lemma oc_read_units em mx md idx :
      oc_read n em (map (vsc s) mx) (vsc t md) idx = (t * fst (oc_read n em mx md idx), vsc s (snd (oc_read n em mx md idx))).
    Proof.
      unfold oc_read. destruct em; [destruct (Nat.eqb idx 0)|]; cbn [fst snd].
      - f_equal; [cbn; ring|symmetry; apply vsc_repeat0].
      - f_equal; [unfold vsc at 1; rewrite firstn_map; apply mean_vsc|rewrite firstn_map; apply mean0_scale].
      - f_equal; [rewrite delete_map_vsc; apply mean_vsc|apply mean0_scale].
    Qed.
    Lemma oc_y_units w em mx md idx x :
      oc_y n (vsc r w) em (map (vsc s) mx) (vsc t md) idx (vsc s x) = t * oc_y n w em mx md idx x.
    Proof.
      unfold oc_y. rewrite oc_read_units. cbn [fst snd]. change (map2 nsub) with vsub. rewrite <- vsc_vsub.
      change (@ndot R (RNum solve)) with Rdot. rewrite Rdot_sc2. cbn [nadd RNum]. unfold r. fd.
    Qed.

    (** *** the memory of AP *)
    Lemma column_mscale c j (A : rmat) : column j (mscale c A) = vsc c (column j A).
    Proof. unfold column, mscale, vsc at 1. rewrite !map_map. apply map_ext. intros v. apply (nth_vsc c v j). Qed.
    Lemma transpose_mscale c k (A : rmat) : transpose k (mscale c A) = mscale c (transpose k A).
    Proof. unfold transpose, mscale at 2. rewrite map_map. apply map_ext. intros j. apply column_mscale. Qed.
    Lemma mm_mscale2 c1 c2 k (A B : rmat) : mm k (mscale c1 A) (mscale c2 B) = mscale (c1 * c2) (mm k A B).
    Proof.
      unfold mm. rewrite transpose_mscale. generalize (transpose k B). intros C. unfold mscale. rewrite !map_map. apply map_ext. intros u.
      unfold vscale at 3. rewrite !map_map. apply map_ext. intros v. exact (Rdot_sc2 c1 c2 u v).
    Qed.
    Lemma madd_mscale c (A B : rmat) : map2 (map2 Rplus) (mscale c A) (mscale c B) = mscale c (map2 (map2 Rplus) A B).
    Proof.
      revert B; induction A as [|u A IH]; intros [|v B]; cbn [mscale map map2]; auto. unfold mscale in IH. rewrite IH. f_equal.
      symmetry. apply vsc_vadd.
    Qed.
    Lemma push_x_units order (xm : rmat) x : push_x order (mscale s xm) (vsc s x) = mscale s (push_x order xm x).
    Proof.
      unfold push_x. revert x; induction xm as [|u xm IH]; intros [|a x]; cbn [mscale vsc map map2]; auto.
      unfold mscale, vsc in IH. rewrite IH. f_equal. unfold vscale. cbn [map]. f_equal. 
      rewrite firstn_map. reflexivity.
    Qed.
    Lemma push_d_units order dm d : push_d order (vsc t dm) (t * d) = vsc t (push_d order dm d).
    Proof. unfold push_d. unfold vsc at 1. rewrite firstn_map. reflexivity. Qed.

    Lemma pred_out_units o1 o2 x : units_rel o1 o2 -> length x = n -> pred_out o2 (vsc s x) = t * pred_out o1 x.
    Proof.
      intros (W1 & W2 & Hw & Hx) Hl. assert (Hl2 : length (vsc s x) = n) by (rewrite vsc_length; auto).
      destruct (is_OCNLMS o1) eqn:Hoc.
      - unfold is_OCNLMS in Hoc. destruct (o_ext o1) as [| | | | | | | | | | | eps mem em mx md idx | | | | ] eqn:E; try discriminate.
        cbn [ext_units] in Hx. destruct Hx as (Hx & _).
        rewrite (pred_out_OCNLMS n o1 x eps mem em mx md idx W1 Hl E), (pred_out_OCNLMS n o2 _ _ _ _ _ _ _ W2 Hl2 Hx), Hw. apply oc_y_units.
      - assert (Hoc2 : is_OCNLMS o2 = false).
        { unfold is_OCNLMS in *. destruct (o_ext o1); try discriminate; cbn [ext_units] in Hx;
            repeat match goal with H : _ /\ _ |- _ => destruct H | H : exists _, _ |- _ => destruct H end;
            match goal with H : o_ext o2 = _ |- _ => rewrite H end; reflexivity. }
        rewrite !(pred_out_R solve n) by auto. rewrite Hw, Rdot_sc2. unfold r. fd.
    Qed.

    Lemma adapt_units o1 o2 d x : units_rel o1 o2 -> length x = n ->
      snd (adapt (t * d) (vsc s x) o2) = snd (adapt d x o1) /\
      (snd (adapt d x o1) = Ok tt -> units_rel (fst (adapt d x o1)) (fst (adapt (t * d) (vsc s x) o2))).
    Proof.
      intros (W1 & W2 & Hw & Hx) Hl. assert (HlT : length (vsc s x) = n) by (rewrite vsc_length; auto).
      destruct (adapt_ok n o1 d x W1 Hl) as (p1 & r1 & E1 & Wp1 & _).
      destruct (adapt_ok n o2 (t * d) (vsc s x) W2 HlT) as (p2 & r2 & E2 & Wp2 & _).
      assert (Hfin : forall q1 q2 s1 s2, adapt d x o1 = (q1, s1) -> adapt (t * d) (vsc s x) o2 = (q2, s2) -> s2 = s1 ->
        (s1 = Ok tt -> o_w q2 = vsc r (o_w q1) /\ ext_units (o_mu q1) (o_mu q2) (o_ext q1) (o_ext q2)) ->
        snd (adapt (t * d) (vsc s x) o2) = snd (adapt d x o1) /\
        (snd (adapt d x o1) = Ok tt -> units_rel (fst (adapt d x o1)) (fst (adapt (t * d) (vsc s x) o2)))).
      { intros q1 q2 s1 s2 Ha Hb -> HH. rewrite E1 in Ha. rewrite E2 in Hb. injection Ha as -> ->. injection Hb as -> ->.
        rewrite E1, E2. cbn [fst snd]. split; auto. intros Hok. destruct (HH Hok) as (A & B). repeat (split; [assumption|]); assumption. }
      pose proof W1 as (L1 & N1 & X1). pose proof W2 as (L2 & N2 & X2).
      assert (He : t * d - Rdot (o_w o2) (vsc s x) = t * (d - Rdot (o_w o1) x)) by (rewrite Hw, Rdot_sc2; unfold r; fd).
      assert (Hadd : forall u v, vadd (vsc r u) (vsc r v) = vsc r (vadd u v)) by (intros; symmetry; apply vsc_vadd).
      assert (Hs2 : s ^ 2 <> 0) by (apply pow_nonzero; lra).
      destruct (o_ext o1) as [| | | | eps | eps | eps | la al | la | eps ro le lx | eps R0
        | eps mem em mx md idx | ro a le lx lf lm | ro le lx lf lm | ro le lx lm | order xm dm ii id ym em ] eqn:E.
      1-9: match type of E with _ = ?c =>
        assert (Ht1 : exists dw, textbook (o_ext o1) (o_mu o1) (d - Rdot (o_w o1) x) x = Some dw) by (rewrite E; eexists; reflexivity);
        destruct Ht1 as (dw & Ht1);
        assert (Ht2 : textbook (o_ext o2) (o_mu o2) (t * d - Rdot (o_w o2) (vsc s x)) (vsc s x) = Some (vsc r dw))
          by (rewrite He; apply (textbook_units (o_ext o1) _ (o_mu o1)); [rewrite E; exact Hx|exact Ht1]);
        eapply Hfin; [apply (adapt_textbook solve o1 d x dw); congruence|apply (adapt_textbook solve o2 _ _ (vsc r dw)); congruence|reflexivity|];
        intros _; cbn [set_w o_w o_mu o_ext]; rewrite Hw, E; split; [apply Hadd|exact Hx] end.
      - (* GNGD *) cbn [ext_units] in Hx. destruct Hx as (Hx & Hmu).
        eapply Hfin; [apply (adapt_GNGD n o1 d x eps ro le lx W1 Hl E)|apply (adapt_GNGD n o2 _ _ _ _ _ _ W2 HlT Hx)|reflexivity|].
        intros _. cbn [set_w set_ext o_w o_mu o_ext ext_units]. rewrite Hmu.
        change (nsub (t * d) (ndot (o_w o2) (vsc s x))) with (t * d - Rdot (o_w o2) (vsc s x)). rewrite He.
        change (nsub d (ndot (o_w o1) x)) with (d - Rdot (o_w o1) x). set (e := d - Rdot (o_w o1) x).
        assert (Heps : gngd_eps (o_mu o1) (s ^ 2 * eps) (unit_ro KGNGD s t * ro) (t * le) (t * e) (vsc s lx) (vsc s x)
                     = s ^ 2 * gngd_eps (o_mu o1) eps ro le e lx x).
        { unfold gngd_eps. change (@ndot R (RNum solve)) with Rdot. rewrite !Rdot_sc2. cbn [nsub nadd nmul ndiv npown RNum].
          replace ((s * s * Rdot lx lx + s ^ 2 * eps) ^ 2) with (s ^ 4 * (Rdot lx lx + eps) ^ 2) by ring.
          rewrite div_scale by (apply pow_nonzero; lra). unfold unit_ro, Rdiv. generalize (/ (Rdot lx lx + eps) ^ 2); intros q. fd. }
        rewrite Heps. set (eps' := gngd_eps _ _ _ _ _ _ _). split; [|split; reflexivity].
        rewrite Hw. change (map2 nadd) with vadd. change (@vscale R (RNum solve)) with vsc. change (@ndot R (RNum solve)) with Rdot.
        rewrite Rdot_sc2, vsc_vsc, <- Hadd, vsc_vsc. f_equal. f_equal. cbn [nadd nmul ndiv RNum].
        replace (s ^ 2 * eps' + s * s * Rdot x x) with (s ^ 2 * (eps' + Rdot x x)) by ring. rewrite div_scale by auto.
        generalize (o_mu o1 / (eps' + Rdot x x)); intros q. unfold r. fd.
      - (* RLS *) cbn [ext_units] in Hx. destruct Hx as (Hmu & R2 & Ex2 & HR2 & HR). cbn [wf_ext] in X1.
        assert (HR1 : shape n n R0) by exact X1.
        destruct (neqb (o_mu o1) n0) eqn:Hz.
        { eapply Hfin; [apply (adapt_RLS_mu0 n o1 d x eps R0 W1 Hl E Hz)|apply (adapt_RLS_mu0 n o2 _ _ _ R2 W2 HlT Ex2); rewrite Hmu; exact Hz|reflexivity|discriminate]. }
        eapply Hfin; [apply (adapt_RLS n o1 d x eps R0 W1 Hl E Hz)|apply (adapt_RLS n o2 _ _ _ R2 W2 HlT Ex2); rewrite Hmu; exact Hz|reflexivity|].
        intros _. cbn [set_w set_ext o_w o_mu o_ext ext_units].
        change (nsub (t * d) (ndot (o_w o2) (vsc s x))) with (t * d - Rdot (o_w o2) (vsc s x)). rewrite He, Hmu.
        change (nsub d (ndot (o_w o1) x)) with (d - Rdot (o_w o1) x). set (e := d - Rdot (o_w o1) x).
        assert (HR' : forall v, length v = n -> mv (rls_R (o_mu o1) R2 (vsc s x)) v = vsc (/ s ^ 2) (mv (rls_R (o_mu o1) R0 x) v)).
        { intros v Hv. rewrite !(rls_mv solve (o_mu o1) n) by auto. unfold rls_den. rewrite (mv_vsc solve), !HR by auto.
          rewrite !vsc_vsc, Rdot_sc2, Rdot_vsc_l, Rdot_vsc_r.
          replace (s * (s * / s ^ 2 * Rdot x (mv (NT := RNum solve) R0 x))) with (Rdot x (mv (NT := RNum solve) R0 x)) by fd.
          set (den := o_mu o1 + _).
          assert (Ed : forall q, s * / s ^ 2 * q / den * s * / s ^ 2 = / s ^ 2 * (q / den)) by (intros; unfold Rdiv; generalize (/ den); intros; fd).
          rewrite Ed.
          rewrite (Rmult_comm (/ s ^ 2) (1 / o_mu o1)), <- (vsc_vsc (1 / o_mu o1) (/ s ^ 2)). f_equal. rewrite vsc_vsub, vsc_vsc. 
          reflexivity. }
        split; [|split; auto].
        + rewrite HR' by auto. rewrite Hw.
          assert (Hm : forall c (v : rvec), map (fun a => nmul a c) v = vsc c v) by (intros; apply map_ext; intros; apply Rmult_comm).
          rewrite !Hm, (mv_vsc solve). rewrite !vsc_vsc. change (map2 nadd) with vadd. rewrite <- Hadd, vsc_vsc. f_equal. f_equal. unfold r. fd.
        + exists (rls_R (o_mu o1) R2 (vsc s x)). split; auto. split; [apply rls_shape; auto|exact HR'].
      - (* OCNLMS *) cbn [ext_units] in Hx. destruct Hx as (Hx & Hmu).
        eapply Hfin; [apply (adapt_OCNLMS n o1 d x eps mem em mx md idx W1 Hl E)|apply (adapt_OCNLMS n o2 _ _ _ _ _ _ _ _ W2 HlT Hx)|reflexivity|].
        intros _. cbn [set_w set_ext o_w o_mu o_ext ext_units]. rewrite Hmu.
        rewrite !set_nth_map, Hw, !oc_y_units, !oc_read_units. cbn [fst snd].
        set (y := oc_y n (o_w o1) em mx md idx x).
        set (rd := oc_read n (oc_em mem em idx) (set_nth (oc_idx mem idx) x mx) md (oc_idx mem idx)).
        set (y1 := oc_y n (o_w o1) _ _ md _ x).
        change (map2 nsub) with vsub. change (map2 nadd) with vadd. rewrite <- vsc_vsub. set (dx := vsub x (snd rd)).
        change (@ndot R (RNum solve)) with Rdot. change (@vscale R (RNum solve)) with vsc. rewrite Rdot_sc2, <- Hadd, !vsc_vsc.
        cbn [nadd nsub nmul ndiv RNum]. split.
        + f_equal. f_equal. replace (s ^ 2 * eps + s * s * Rdot dx dx) with (s ^ 2 * (eps + Rdot dx dx)) by ring. rewrite div_scale by auto.
          generalize (o_mu o1 / (eps + Rdot dx dx)); intros q. unfold r. fd.
        + split; [|reflexivity]. f_equal. replace (t * d - t * y + t * y1) with (t * (d - y + y1)) by ring. exact (set_nth_map (Rmult t) _ _ md).
      - (* Ang *) cbn [ext_units] in Hx.
        eapply Hfin; [apply (adapt_Ang n o1 d x ro a le lx lf lm W1 Hl E)|apply (adapt_Ang n o2 _ _ _ _ _ _ _ _ W2 HlT Hx)|reflexivity|].
        intros _. cbn [set_w set_ext o_w o_mu o_ext ext_units].
        change (nsub (t * d) (ndot (o_w o2) (vsc s x))) with (t * d - Rdot (o_w o2) (vsc s x)). rewrite He.
        change (nsub d (ndot (o_w o1) x)) with (d - Rdot (o_w o1) x). set (e := d - Rdot (o_w o1) x).
        change (@vscale R (RNum solve)) with vsc. change (map2 nadd) with vadd. change (@ndot R (RNum solve)) with Rdot.
        assert (Hfi : vadd (vsc a (vsc (s * t) lf)) (vsc (t * le) (vsc s lx)) = vsc (s * t) (vadd (vsc a lf) (vsc le lx))).
        { rewrite vsc_vadd, !vsc_vsc. f_equal; f_equal; ring. }
        rewrite Hfi. set (fi := vadd (vsc a lf) (vsc le lx)). rewrite Rdot_sc2. cbn [nadd nmul RNum].
        assert (Hm : 1 / s ^ 2 * lm + unit_ro KAng s t * ro * (t * e) * (s * (s * t) * Rdot lx fi) = 1 / s ^ 2 * (lm + ro * e * Rdot lx fi)).
        { unfold unit_ro. fd. }
        rewrite Hm. set (m := lm + _). rewrite vsc_vsc, Hw, <- Hadd, vsc_vsc. split; [|reflexivity]. f_equal. f_equal. unfold r. fd.
      - (* Benveniste *) cbn [ext_units] in Hx. cbn [wf_ext] in X1. destruct X1 as (Hlx & Hlf).
        eapply Hfin; [apply (adapt_Benveniste n o1 d x ro le lx lf lm W1 Hl E)|apply (adapt_Benveniste n o2 _ _ _ _ _ _ _ W2 HlT Hx)|reflexivity|].
        intros _. cbn [set_w set_ext o_w o_mu o_ext ext_units].
        change (nsub (t * d) (ndot (o_w o2) (vsc s x))) with (t * d - Rdot (o_w o2) (vsc s x)). rewrite He.
        change (nsub d (ndot (o_w o1) x)) with (d - Rdot (o_w o1) x). set (e := d - Rdot (o_w o1) x).
        change (@vscale R (RNum solve)) with vsc. change (map2 nadd) with vadd. change (@ndot R (RNum solve)) with Rdot.
        assert (Hfi : ben_fi n (1 / s ^ 2 * lm) (t * le) (vsc s lx) (vsc (s * t) lf) = vsc (s * t) (ben_fi n lm le lx lf)).
        { rewrite !(ben_closed solve) by (rewrite ?vsc_length; auto). rewrite Rdot_sc2, vsc_vadd, vsc_vsub, !vsc_vsc. f_equal; [f_equal|]; f_equal; fd. }
        rewrite Hfi. set (fi := ben_fi n lm le lx lf). rewrite Rdot_sc2. cbn [nadd nmul RNum].
        assert (Hm : 1 / s ^ 2 * lm + unit_ro KAng s t * ro * (t * e) * (s * (s * t) * Rdot lx fi) = 1 / s ^ 2 * (lm + ro * e * Rdot lx fi)).
        { unfold unit_ro. fd. }
        rewrite Hm. set (m := lm + _). rewrite vsc_vsc, Hw, <- Hadd, vsc_vsc. split; [|reflexivity]. f_equal. f_equal. unfold r. fd.
      - (* Mathews *) cbn [ext_units] in Hx.
        eapply Hfin; [apply (adapt_Mathews n o1 d x ro le lx lm W1 Hl E)|apply (adapt_Mathews n o2 _ _ _ _ _ _ W2 HlT Hx)|reflexivity|].
        intros _. cbn [set_w set_ext o_w o_mu o_ext ext_units].
        change (nsub (t * d) (ndot (o_w o2) (vsc s x))) with (t * d - Rdot (o_w o2) (vsc s x)). rewrite He.
        change (nsub d (ndot (o_w o1) x)) with (d - Rdot (o_w o1) x). set (e := d - Rdot (o_w o1) x).
        change (@vscale R (RNum solve)) with vsc. change (map2 nadd) with vadd. change (@ndot R (RNum solve)) with Rdot.
        rewrite Rdot_sc2. cbn [nadd nmul RNum].
        assert (Hm : 1 / s ^ 2 * lm + unit_ro KAng s t * ro * (t * e) * (t * le) * (s * s * Rdot lx x) = 1 / s ^ 2 * (lm + ro * e * le * Rdot lx x)).
        { unfold unit_ro. fd. }
        rewrite Hm. set (m := lm + _). rewrite vsc_vsc, Hw, <- Hadd, vsc_vsc. split; [|reflexivity]. f_equal. f_equal. unfold r. fd.
      - (* AP *) cbn [ext_units] in Hx. destruct Hx as (Hmu & ym2 & em2 & Ex2 & Hii & Hid & HS).
        cbn [wf_ext] in X1. destruct X1 as (Ho & Hlx & HF & Hld).
        pose proof (adapt_AP_step n o1 d x order xm dm ii id ym em W1 Hl E) as A1.
        pose proof (adapt_AP_step n o2 (t * d) (vsc s x) _ _ _ _ _ _ _ W2 HlT Ex2) as A2. cbv zeta in A1, A2.
        rewrite push_x_units, push_d_units, transpose_mscale, mm_mscale2 in A2.
        set (P := push_x order xm x) in *. set (Dm := push_d order dm d) in *.
        assert (HA : map2 (map2 nadd) (mscale (s * s) (mm order (transpose order P) P)) (mscale (s ^ 2) ii)
                   = mscale (s ^ 2) (map2 (map2 nadd) (mm order (transpose order P) P) ii)).
        { replace (s * s) with (s ^ 2) by ring. apply madd_mscale. }
        rewrite HA in A2. set (A := map2 (map2 nadd) (mm order (transpose order P) P) ii) in *.
        assert (HshA : shape order order A).
        { apply (map2m_shape order order Rplus); auto. apply mm_shape. apply transpose_len. }
        change (@nsolve R (RNum solve)) with solve in A1, A2.
        rewrite (HS order (s ^ 2) A id) in A2 by (auto; apply pow_lt; auto).
        assert (Hee : map2 nsub (vsc t Dm) (mv (mscale s (transpose order P)) (o_w o2)) = vsc t (map2 nsub Dm (mv (transpose order P) (o_w o1)))).
        { change (map2 nsub) with vsub. rewrite vsc_vsub. f_equal. rewrite Hw, (mv_vsc solve), (mv_mscale solve), vsc_vsc. f_equal. unfold r. fd. }
        rewrite Hee in A2. set (em1 := map2 nsub Dm _) in *. destruct (solve A id) as [G|]; cbn [option_map] in A2.
        + eapply Hfin; [exact A1|exact A2|reflexivity|]. intros _. cbn [set_w set_ext o_w o_mu o_ext ext_units]. split.
          * rewrite Hmu, Hw. change (map2 nadd) with vadd. change (@vscale R (RNum solve)) with vsc. rewrite <- Hadd. f_equal.
            rewrite !(mv_mscale solve), !(mv_vsc solve), !vsc_vsc. f_equal. unfold r. fd.
          * split; [exact Hmu|]. do 2 eexists. split; [reflexivity|]. auto.
        + eapply Hfin; [exact A1|exact A2|reflexivity|discriminate].
    Qed.

    Lemma run_units o1 o2 d x : units_rel o1 o2 -> rowsl n x ->
      snd (run (map (Rmult t) d) (map (vsc s) x) o2) =
        rmap (fun '(y, e, w) => (map (Rmult t) y, map (Rmult t) e, map (vsc r) w)) (snd (run d x o1)).
    Proof.
      intros HR Hx.
      destruct (Nat.eq_dec (length d) (length x)) as [Hl|Hl].
      2:{ rewrite !run_bad_length by (rewrite ?map_length; assumption). reflexivity. }
      destruct x as [|x0 x'] eqn:Ex; [destruct d; [|discriminate]; reflexivity|].
      rewrite <- Ex in *. assert (Hne : x <> []) by congruence. clear Ex.
      destruct (run_rel n n units_rel (fun _ _ => True) (Rmult t) (vsc s) (vsc r)) with (o1 := o1) (o2 := o2) (d := d) (x := x) as (H1 & _); auto.
      - intros a b (A & B & C & _); auto.
      - intros a b d0 xk Hab Hl0 _. split; [rewrite vsc_length; auto|]. split; [apply pred_out_units; auto|]. apply adapt_units; auto.
      - intros a b. cbn [nsub RNum]. ring.
    Qed.

    Lemma mscale_identity_shape c k : shape k k (mscale c (identity k)).
    Proof. apply mscale_shape, identity_shape. Qed.
    Lemma new_filter_units rng k (kw : kwargs R) o1 :
      rng_ok rng -> sane_kw kw -> kw_n kw = Some (Z.of_nat n) -> units_given k kw -> (k = KAP -> homogeneous_solver) ->
      new_filter rng k kw = Ok o1 -> exists o2, new_filter rng k (in_units k s t kw) = Ok o2 /\ units_rel o1 o2.
    Proof.
      intros Hrng Hsane Hn (Hmu & (v & Hv) & Hg) Hap H1.
      assert (W1 : wf n o1) by (eapply new_filter_wf; [exact Hrng| | |exact H1]; auto).
      assert (Hs2 : s ^ 2 <> 0) by (apply pow_nonzero; lra).
      destruct (kw_mu kw) as [mu|] eqn:Emu; [|discriminate].
      assert (HH : exists x2, new_filter rng k (in_units k s t kw) = Ok (mkObj (vsc r (o_w o1)) (o_n o1) (unit_mu k s t * mu) (o_hist o1) x2)
        /\ o_mu o1 = mu /\ ext_units mu (unit_mu k s t * mu) (o_ext o1) x2).
      2:{ destruct HH as (x2 & HH & Hm & Hx). eexists. split; [exact HH|].
          split; auto. split; [|split; [reflexivity|cbn [o_mu o_ext]; rewrite Hm; exact Hx]].
          eapply new_filter_wf; [exact Hrng| | |exact HH]; auto. }
      revert H1. unfold new_filter. change (kw_other (in_units k s t kw)) with (kw_other kw). change (kw_n (in_units k s t kw)) with (kw_n kw).
      change (kw_mu (in_units k s t kw)) with (option_map (Rmult (unit_mu k s t)) (kw_mu kw)).
      change (kw_w (in_units k s t kw)) with (match kw_w kw with Some (WVec v) => Some (WVec (vsc (t / s) v)) | q => q end).
      rewrite Hn, Emu, Hv. cbn [option_map].
      destruct (kw_other kw); [discriminate|].
      replace (existsb (fun p => kw_given (in_units k s t kw) p && negb (accepts k p)) all_params)
        with (existsb (fun p => kw_given kw p && negb (accepts k p)) all_params).
      2:{ unfold all_params, in_units; cbn [existsb kw_given kw_eps kw_ro kw_a kw_lambd kw_alpha kw_order kw_ifc kw_mem].
          destruct (kw_eps kw), (kw_ro kw), (kw_lambd kw), (kw_ifc kw); reflexivity. }
      destruct (existsb _ _); [discriminate|].
      cbn [opt]. unfold init_base. destruct (Z.of_nat n =? -1)%Z; [discriminate|].
      unfold init_weights. rewrite vsc_length. destruct (Z.of_nat (length v) =? Z.of_nat n)%Z; [|discriminate].
      cbn [rmap rbind]. rewrite Nat2Z.id.
      destruct (init_ext k kw n mu) as [x1|] eqn:Ex; [|discriminate].
      cbn [rmap]. intros [= <-]. unfold set_ext; cbn [o_w o_n o_mu o_hist o_ext].
      assert (HH : exists x2, init_ext k (in_units k s t kw) n (unit_mu k s t * mu) = Ok x2 /\ ext_units mu (unit_mu k s t * mu) x1 x2).
      2:{ destruct HH as (x2 & HH & Hx). exists x2. rewrite HH. cbn [rmap]. auto. }
      assert (G1 : accepts k Peps = true -> kw_given kw Peps = true) by (intros A; apply accepts_documented in A; apply Hg; simpl; auto).
      assert (G2 : accepts k Pro = true -> kw_given kw Pro = true) by (intros A; apply accepts_documented in A; apply Hg; simpl; auto).
      assert (G3 : accepts k Plambd = true -> kw_given kw Plambd = true) by (intros A; apply accepts_documented in A; apply Hg; simpl; auto).
      assert (G4 : accepts k Pifc = true -> kw_given kw Pifc = true) by (intros A; apply accepts_documented in A; apply Hg; simpl; auto 6).
      assert (Hz : forall c m, vsc c (zeros m) = zeros m) by (intros; apply vsc_repeat0).
      assert (Hz2 : forall c a b, map (vsc c) (zeros2 a b) = zeros2 a b).
      { intros c a b. unfold zeros2. induction a as [|a IH]; [reflexivity|]. cbn [repeat map]. f_equal; [apply Hz|exact IH]. }
      destruct k; cbn [accepts kw_given] in G1, G2, G3, G4; cbn [init_ext] in Ex |- *; cbv zeta in Ex |- *;
        unfold in_units; cbn [kw_eps kw_ro kw_a kw_lambd kw_alpha kw_order kw_ifc kw_mem].
      all: try (destruct (kw_eps kw) as [eps|]; [|specialize (G1 eq_refl); discriminate]).
      all: try (destruct (kw_ro kw) as [ro|]; [|specialize (G2 eq_refl); discriminate]).
      all: try (destruct (kw_lambd kw) as [la|]; [|specialize (G3 eq_refl); discriminate]).
      all: try (destruct (kw_ifc kw) as [ifc|]; [|specialize (G4 eq_refl); discriminate]).
      all: cbn [opt option_map] in Ex |- *.
      all: try (injection Ex as <-; eexists; split; [reflexivity|]; cbn [ext_units unit_mu]; rewrite ?Hz, ?Rmult_0_r, ?Rmult_1_l; auto; fail).
      - (* AP *) injection Ex as <-. eexists. split; [reflexivity|]. cbn [ext_units unit_mu]. split; [ring|].
        exists [], []. split; [|split; [apply mscale_identity_shape|split; [apply identity_shape|apply Hap; reflexivity]]].
        f_equal; [symmetry; apply Hz2|symmetry; apply Hz|].
        unfold mscale. rewrite map_map. apply map_ext. intros u. symmetry. exact (vsc_vsc (s ^ 2) ifc u).
      - (* OCNLMS *) injection Ex as <-. eexists. split; [reflexivity|]. cbn [ext_units unit_mu]. split; [|ring].
        rewrite Hz, Hz2. reflexivity.
      - (* RLS *) change neqb with Reqb in *. change n0 with 0 in *. unfold Reqb in *.
        destruct (Req_EM_T eps 0) as [|He]; [discriminate|]. injection Ex as <-.
        destruct (Req_EM_T (s ^ 2 * eps) 0) as [H|H]; [exfalso; apply Rmult_integral in H as [H|H]; auto|].
        eexists. split; [reflexivity|]. cbn [ext_units unit_mu]. split; [ring|]. eexists. split; [reflexivity|].
        split; [apply mscale_identity_shape|]. intros u Hu. rewrite !(mv_mscale solve), !(mv_identity solve), vsc_vsc by auto.
        f_equal. change (1 / (s ^ 2 * eps) = / s ^ 2 * (1 / eps)). field. split; [exact He|lra].
    Qed.
  End Scale.

  (** Inputs in other units, targets in other units: the filter built from the converted arguments computes the same
      estimates, errors and weights, expressed in the new units. *)
  Theorem C57_change_of_units : forall rng k (kw : kwargs R) n s t (o1 : obj) d x,
    0 < s -> 0 < t -> rng_ok rng -> sane_kw kw -> kw_n kw = Some (Z.of_nat n) -> units_given k kw ->
    (k = KAP -> homogeneous_solver) ->
    new_filter rng k kw = Ok o1 -> rows_of n x ->
    exists o2, new_filter rng k (in_units k s t kw) = Ok o2 /\
      snd (run (map (Rmult t) d) (map (vsc s) x) o2) =
        rmap (fun '(y, e, w) => (map (Rmult t) y, map (Rmult t) e, map (vsc (t / s)) w)) (snd (run d x o1)).
  Proof.
    intros rng k kw n s t o1 d x Hs Ht Hrng Hsane Hn Hg Hap H1 Hx.
    destruct (new_filter_units n s t Hs rng k kw o1 Hrng Hsane Hn Hg Hap H1) as (o2 & H2 & HR).
    exists o2. split; auto. apply (run_units n s t Hs Ht); auto.
  Qed.

  (** *** The hypotheses can be met, for every class *)
  Definition kwU (k : kind) : kwargs R :=
    let g p := if accepts k p then Some (1 / 2) else None in
    mkKw (Some 2%Z) (Some 1) (Some (WVec [3; 4])) (g Peps) (g Pro) (g Pa) (g Plambd) (g Palpha) None (g Pifc) None false.
  Example C57_hypotheses : forall k, exists o1, sane_kw (kwU k) /\ kw_n (kwU k) = Some (Z.of_nat 2) /\ units_given k (kwU k) /\
    new_filter rngR k (kwU k) = Ok o1 /\ o_w o1 = [3; 4] /\ rows_of 2 [[1; 2]; [3; 4]].
  Proof.
    assert (Hh : Reqb (1 / 2) 0 = false) by (unfold Reqb; destruct (Req_EM_T (1 / 2) 0); [lra|reflexivity]).
    intros k. destruct k;
      (eexists; split; [split; intros ? Hq; discriminate Hq|]; split; [reflexivity|];
       split; [split; [reflexivity|split; [eexists; reflexivity|]]|];
       [intros p Hp Hd; apply accepts_documented in Hd; destruct p; simpl in Hd; try discriminate Hd; try reflexivity; simpl in Hp; intuition discriminate|];
       split; [unfold new_filter; cbn; rewrite ?Hh; reflexivity|]; split; [reflexivity|repeat constructor]).
  Qed.
End Units.

Example C57_solver : homogeneous_solver rsolve.
Proof.
  intros k c A B Hc (HA & FA) (HB & FB).
  assert (Hrow : forall (u : rvec) k, length u = k -> match k with 0%nat => u = [] | 1%nat => exists a, u = [a] | 2%nat => exists a b, u = [a; b]
            | _ => exists a b q v, u = a :: b :: q :: v end).
  { intros u k0 Hu. destruct k0 as [|[|[|k0]]]; destruct u as [|a [|b [|q u]]]; try discriminate; eauto. }
  destruct k as [|[|[|k]]].
  - destruct A; [|discriminate]. reflexivity.
  - destruct A as [|u [|]]; try discriminate. destruct B as [|v [|]]; try discriminate.
    destruct (Hrow u 1%nat (Forall_inv FA)) as (a & ->). destruct (Hrow v 1%nat (Forall_inv FB)) as (b & ->).
    unfold mscale, vscale. cbn [map rsolve].
    destruct (Req_EM_T a 0) as [->|Ha].
    + change (nmul c 0) with (c * 0). destruct (Req_EM_T (c * 0) 0); [reflexivity|lra].
    + change (nmul c a) with (c * a). destruct (Req_EM_T (c * a) 0) as [H|H]; [apply Rmult_integral in H as [H|H]; lra|].
      cbn [option_map map]. do 3 f_equal. change (b / (c * a) = / c * (b / a)). field. lra.
  - destruct A as [|u [|u' [|]]]; try discriminate. destruct B as [|v [|v' [|]]]; try discriminate.
    destruct (Hrow u 2%nat (Forall_inv FA)) as (a & b & ->). destruct (Hrow u' 2%nat (Forall_inv (Forall_inv_tail FA))) as (a' & b' & ->).
    destruct (Hrow v 2%nat (Forall_inv FB)) as (p & q & ->). destruct (Hrow v' 2%nat (Forall_inv (Forall_inv_tail FB))) as (p' & q' & ->).
    unfold mscale, vscale. cbn [map rsolve].
    change (nmul c a) with (c * a). change (nmul c b) with (c * b). change (nmul c a') with (c * a'). change (nmul c b') with (c * b').
    cbv zeta. replace (c * a * (c * b') - c * b * (c * a')) with (c * c * (a * b' - b * a')) by ring. set (det := a * b' - b * a').
    destruct (Req_EM_T det 0) as [->|Hd].
    + destruct (Req_EM_T (c * c * 0) 0); [reflexivity|lra].
    + destruct (Req_EM_T (c * c * det) 0) as [H|H]; [apply Rmult_integral in H as [H|H]; [nra|lra]|].
      cbn [option_map map]. change (@nmul R (RNum rsolve)) with Rmult. unfold det.
      f_equal. f_equal; [f_equal; [field|f_equal; field]|f_equal; f_equal; [field|f_equal; field]]; fold det; lra.
  - destruct A as [|u A]; [discriminate|]. destruct (Hrow u _ (Forall_inv FA)) as (a & b & q & w & ->).
    unfold mscale, vscale. cbn [map rsolve]. 
    destruct A as [|u' [|]]; reflexivity.
Qed.
