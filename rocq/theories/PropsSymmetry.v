(** Property C30: permuting (all classes) or rotating (all but the sign classes) the input coordinates together with
    the initial weights permutes / rotates the weight history and leaves y and e unchanged; exact real arithmetic. *)
From Coq Require Import Reals Lra Psatz Permutation.
From Verif Require Import Py Num Numpy Filters Registry Spec StructProofs RunProofs Reach RVec RFilter Steps RMat
  PropsStability PropsAlgebra PropsRLS.
Open Scope R_scope.

(** ** Specification *)
(** coordinate i of the result is coordinate p[i] of v, as numpy's v[p] *)
Definition permute (p : list nat) (v : rvec) : rvec := map (fun i => nth i v 0) p.
(** Q v for an orthogonal matrix Q *)
Definition rotate (Q : rmat) (v : rvec) : rvec := map (fun row => Rdot row v) Q.
Definition orthogonal (n : nat) (Q : rmat) : Prop :=
  shape n n Q /\ forall i j, (i < n)%nat -> (j < n)%nat -> sumn n (fun k => ent Q k i * ent Q k j) = delta i j.

Section Sym.
  Variable solve : list rvec -> list rvec -> option (list rvec).
  #[local] Hint Extern 0 (Num R) => exact (RNum solve) : typeclass_instances.
  Notation obj := (obj R).

  Fixpoint lincomb (n m : nat) (c : nat -> R) (f : nat -> rvec) : rvec :=
    match m with O => repeat 0 n | S m' => vadd (lincomb n m' c f) (vsc (c m') (f m')) end.
  Lemma lincomb_len n m c f : (forall j, (j < m)%nat -> length (f j) = n) -> length (lincomb n m c f) = n.
  Proof.
    induction m as [|m IH]; intros H; cbn [lincomb]; [apply repeat_length|].
    apply vadd_length; [apply IH; auto|rewrite vsc_length; auto].
  Qed.
  Lemma lincomb_nth n m c f i : (forall j, (j < m)%nat -> length (f j) = n) ->
    nth i (lincomb n m c f) 0 = sumn m (fun j => c j * nth i (f j) 0).
  Proof.
    induction m as [|m IH]; intros H; cbn [lincomb sumn]; [apply nth_repeat|].
    rewrite nth_vadd, nth_vsc, IH; auto. rewrite vsc_length, lincomb_len; auto. symmetry; auto.
  Qed.
  Lemma mv_lincomb n order (xm : rmat) (z : rvec) : length xm = n -> rowsl order xm ->
    mv xm z = lincomb n order (fun j => nth j z 0) (fun j => column j xm).
  Proof.
    intros Hl HF. assert (Hc : forall j, (j < order)%nat -> length (column j xm) = n) by (intros; rewrite (column_len solve); auto).
    apply nth_ext0; [rewrite (mv_len solve), lincomb_len; auto|]. intros i Hi. rewrite (mv_len solve) in Hi.
    rewrite lincomb_nth by auto. rewrite (mv_nth solve) by auto.
    assert (Hr : length (nth i xm []) = order) by (apply nth_rows; auto).
    rewrite (sumn_ext order _ (fun j => nth j (nth i xm []) 0 * nth j z 0)).
    2:{ intros j Hj. rewrite (column_nth solve) by auto. unfold ent. ring. }
    generalize (nth i xm []) Hr. clear. intros r. revert order z; induction r as [|a r IH]; intros order z Hr; simpl in Hr; subst order.
    - reflexivity.
    - rewrite sumn_S_l. destruct z as [|b z]; cbn [Rdot nth].
      + rewrite (sumn_ext _ _ (fun _ => 0)) by (intros j _; destruct j; ring). rewrite sumn_0. ring.
      + rewrite (IH (length r) z) by auto. reflexivity.
  Qed.
  Lemma mean0_lincomb n (A : rmat) : rowsl n A ->
    mean0 n A = vsc (/ INR (length A)) (lincomb n (length A) (fun _ => 1) (fun j => nth j A [])).
  Proof.
    intros HF. assert (Hc : forall j, (j < length A)%nat -> length (nth j A []) = n) by (intros; apply nth_rows; auto).
    apply nth_ext0; [rewrite mean0_length, vsc_length, lincomb_len; auto|]. intros i Hi. rewrite mean0_length in Hi.
    rewrite nth_vsc, lincomb_nth by auto. unfold mean0. rewrite (map_nth_lt _ _ _ ([] : rvec)) by (rewrite (transpose_len solve); auto).
    rewrite (transpose_nth solve) by auto. unfold mean. rewrite (column_len solve). unfold nofnat. cbn [nofZ RNum].
    rewrite <- INR_IZR_INZ. change (@nsum R (RNum solve)) with Rsum. change (@ndiv R (RNum solve)) with Rdiv.
    rewrite Rsum_sumn, (column_len solve). unfold Rdiv. rewrite Rmult_comm. f_equal. apply sumn_ext. intros j Hj.
    rewrite (column_nth solve) by auto. unfold ent. ring.
  Qed.
  Lemma ben_closed n lm le lx lf : length lx = n -> length lf = n ->
    ben_fi n lm le lx lf = vadd (vsub lf (vsc (lm * Rdot lx lf) lx)) (vsc le lx).
  Proof.
    intros Hx Hf. unfold ben_fi. change (@nadd R (RNum solve)) with Rplus. change (@vscale R (RNum solve)) with vsc.
    change (@nsub R (RNum solve)) with Rminus. unfold vadd. f_equal.
    assert (HO : shape n n (mscale lm (outer lx lx))).
    { apply mscale_shape. pose proof (outer_shape solve lx lx) as H. rewrite Hx in H. exact H. }
    pose proof (identity_shape solve n) as HI. pose proof (map2m_shape n n Rminus _ _ HI HO) as HM.
    apply nth_ext0.
    - rewrite (mv_len solve), (vsub_length _ _ n); rewrite ?vsc_length; auto. apply HM.
    - intros i Hi. rewrite (mv_len solve) in Hi. assert (Hi' : (i < n)%nat) by (destruct HM; lia).
      rewrite (mv_ent solve n n) by auto. rewrite nth_vsub, nth_vsc by (rewrite vsc_length; congruence).
      rewrite (sumn_ext n _ (fun j => ent (identity n) i j * nth j lf 0 - ent (mscale lm (outer lx lx)) i j * nth j lf 0)).
      2:{ intros j Hj. etransitivity; [apply f_equal2; [exact (map2m_ent n n Rminus _ _ i j HI HO Hi' Hj)|reflexivity]|]. ring. }
      rewrite sumn_minus, <- (mv_ent solve n n (identity n)), <- (mv_ent solve n n (mscale lm (outer lx lx))) by auto.
      rewrite (mv_identity solve) by auto. rewrite (mv_mscale solve), (mv_outer solve), !nth_vsc. ring.
  Qed.

  Section Iso.
    Variables (n : nat) (T : rvec -> rvec).
    Hypothesis T_len : forall v, length v = n -> length (T v) = n.
    Hypothesis T_dot : forall u v, length u = n -> length v = n -> Rdot (T u) (T v) = Rdot u v.
    Hypothesis T_add : forall u v, length u = n -> length v = n -> T (vadd u v) = vadd (T u) (T v).
    Hypothesis T_sc : forall c v, length v = n -> T (vsc c v) = vsc c (T v).
    Definition coordinatewise : Prop := forall (f : R -> R) v, length v = n -> T (map f v) = map f (T v).

    Lemma T_zero : T (repeat 0 n) = repeat 0 n.
    Proof.
      replace (repeat 0 n) with (vsc 0 (repeat 0 n)) at 1 by (rewrite vsc_zero, repeat_length; reflexivity).
      rewrite T_sc by apply repeat_length. rewrite vsc_zero. f_equal. apply T_len, repeat_length.
    Qed.
    Lemma T_sub u v : length u = n -> length v = n -> T (vsub u v) = vsub (T u) (T v).
    Proof.
      intros Hu Hv.
      assert (Hs : forall a b : rvec, length a = n -> length b = n -> vsub a b = vadd a (vsc (-1) b)).
      { intros a b Ha Hb. apply nth_ext0; [rewrite (vsub_length _ _ n), (vadd_length _ _ n); rewrite ?vsc_length; auto|].
        intros i _. rewrite nth_vsub, nth_vadd, nth_vsc by (rewrite ?vsc_length; congruence). ring. }
      rewrite !Hs by auto. rewrite T_add, T_sc by (rewrite ?vsc_length; auto). reflexivity.
    Qed.
    Lemma T_lincomb m c f : (forall j, (j < m)%nat -> length (f j) = n) ->
      T (lincomb n m c f) = lincomb n m c (fun j => T (f j)).
    Proof.
      induction m as [|m IH]; intros H; cbn [lincomb]; [apply T_zero|].
      rewrite T_add, T_sc by (rewrite ?vsc_length, ?lincomb_len; auto). rewrite IH by auto. reflexivity.
    Qed.
    Lemma lincomb_ext m c f g : (forall j, (j < m)%nat -> f j = g j) -> lincomb n m c f = lincomb n m c g.
    Proof. induction m as [|m IH]; intros H; cbn [lincomb]; auto. rewrite IH, H; auto. Qed.

    Lemma T_mean0 (A : rmat) : rowsl n A -> T (mean0 n A) = mean0 n (map T A).
    Proof.
      intros HF. assert (Hc : forall j, (j < length A)%nat -> length (nth j A []) = n) by (intros; apply nth_rows; auto).
      rewrite !mean0_lincomb; auto.
      2:{ apply Forall_map. eapply Forall_impl; [|exact HF]. auto. }
      rewrite T_sc by (apply lincomb_len; auto). rewrite T_lincomb, map_length by auto. f_equal. apply lincomb_ext. intros j Hj.
      rewrite (map_nth_lt _ _ _ ([] : rvec)) by auto. reflexivity.
    Qed.

    Definition ext_rel (a b : ext R) : Prop :=
      match a with
      | XSSLMS | XNSSLMS _ => b = a /\ coordinatewise
      | XGNGD eps ro le lx => b = XGNGD eps ro le (T lx)
      | XRLS eps R1 => exists R2, b = XRLS eps R2 /\ shape n n R2 /\ forall v, length v = n -> mv R2 (T v) = T (mv R1 v)
      | XOCNLMS eps mem em mx md idx => b = XOCNLMS eps mem em (map T mx) md idx
      | XAng ro a le lx lf lm => b = XAng ro a le (T lx) (T lf) lm
      | XBenveniste ro le lx lf lm => b = XBenveniste ro le (T lx) (T lf) lm
      | XMathews ro le lx lm => b = XMathews ro le (T lx) lm
      | XAP order xm dm ii id ym em => exists xm2, b = XAP order xm2 dm ii id ym em /\
          forall j, (j < order)%nat -> column j xm2 = T (column j xm)
      | _ => b = a
      end.
    Definition sym_rel (o1 o2 : obj) : Prop :=
      wf n o1 /\ wf n o2 /\ o_w o2 = T (o_w o1) /\ o_mu o2 = o_mu o1 /\ ext_rel (o_ext o1) (o_ext o2).

    Lemma textbook_T c mu e x dw : length x = n -> ext_rel c c -> textbook c mu e x = Some dw -> textbook c mu e (T x) = Some (T dw).
    Proof.
      intros Hx Hc. pose proof (T_len x Hx) as HTx. pose proof (T_dot x x Hx Hx) as Hn. fold (normsq (T x)) in Hn. fold (normsq x) in Hn.
      destruct c; simpl in *; try discriminate; intros H; injection H as <-; rewrite ?Hn, ?T_sc by auto; auto.
      - rewrite HTx, Hx, T_zero. reflexivity.
      - destruct Hc as (_ & Hc). rewrite Hc by auto. reflexivity.
      - destruct Hc as (_ & Hc). rewrite Hc by auto. reflexivity.
    Qed.

    Lemma oc_read_T em mx md idx : rowsl n mx ->
      oc_read n em (map T mx) md idx = (fst (oc_read n em mx md idx), T (snd (oc_read n em mx md idx))).
    Proof.
      intros HF. unfold oc_read. destruct em; [destruct (Nat.eqb idx 0)|]; cbn [fst snd].
      - f_equal. symmetry. apply T_zero.
      - f_equal. rewrite firstn_map. symmetry. apply T_mean0. apply firstn_rows; auto.
      - f_equal. symmetry. apply T_mean0; auto.
    Qed.
    Lemma oc_y_T w em mx md idx x : rowsl n mx -> length w = n -> length x = n ->
      oc_y n (T w) em (map T mx) md idx (T x) = oc_y n w em mx md idx x.
    Proof.
      intros HF Hw Hx. unfold oc_y. rewrite oc_read_T by auto. cbn [fst snd].
      pose proof (oc_read_length n em mx md idx) as Hl. f_equal. change (@ndot R (RNum solve)) with Rdot.
      change (map2 nsub (T x) (T (snd (oc_read n em mx md idx)))) with (vsub (T x) (T (snd (oc_read n em mx md idx)))).
      change (map2 nsub x (snd (oc_read n em mx md idx))) with (vsub x (snd (oc_read n em mx md idx))).
      rewrite <- T_sub by auto. apply T_dot; auto. apply vsub_length; auto.
    Qed.
    Lemma set_nth_map {A B} (f : A -> B) k a l : set_nth k (f a) (map f l) = map f (set_nth k a l).
    Proof. revert k; induction l as [|b l IH]; intros [|k]; simpl; auto. rewrite IH; reflexivity. Qed.

    Lemma transpose_rel order (xm xm2 : rmat) : (forall j, (j < order)%nat -> column j xm2 = T (column j xm)) ->
      transpose order xm2 = map T (transpose order xm).
    Proof.
      intros H. unfold transpose. rewrite map_map. apply map_ext_in. intros j Hj. apply in_seq in Hj. apply H. lia.
    Qed.
    Lemma push_rel order (xm xm2 : rmat) x : (1 <= order)%nat -> rowsl order xm -> rowsl order xm2 -> length xm = n -> length xm2 = n ->
      length x = n -> (forall j, (j < order)%nat -> column j xm2 = T (column j xm)) ->
      forall j, (j < order)%nat -> column j (push_x order xm2 (T x)) = T (column j (push_x order xm x)).
    Proof.
      intros Ho H1 H2 Hl1 Hl2 Hx H [|j] Hj.
      - assert (Hc : forall (A : rmat) (v : rvec), length v = length A -> column 0 (push_x order A v) = v).
        { intros A v Hv. pose proof (transpose_push_0 order A v Ho Hv) as Ht.
          destruct order as [|k]; [lia|]. cbn [transpose seq map nth] in Ht. exact Ht. }
        rewrite !Hc by (rewrite ?T_len; congruence). reflexivity.
      - rewrite !(column_push solve) by (auto; rewrite ?T_len; congruence). apply H. lia.
    Qed.

    Lemma vadd_T w v : length w = n -> length v = n -> map2 Rplus (T w) (T v) = T (map2 Rplus w v).
    Proof. intros; symmetry; apply T_add; auto. Qed.

    Lemma pred_out_T o1 o2 x : sym_rel o1 o2 -> length x = n -> pred_out o2 (T x) = pred_out o1 x.
    Proof.
      intros (W1 & W2 & Hw & Hmu & Hx) Hl. pose proof W1 as (L1 & _ & X1).
      destruct (is_OCNLMS o1) eqn:Hoc.
      - unfold is_OCNLMS in Hoc. destruct (o_ext o1) as [| | | | | | | | | | | eps mem em mx md idx | | | | ] eqn:E; try discriminate.
        cbn [ext_rel] in Hx. simpl in X1. destruct X1 as (_ & _ & HF & _).
        rewrite (pred_out_OCNLMS n o1 x eps mem em mx md idx W1 Hl E).
        rewrite (pred_out_OCNLMS n o2 (T x) eps mem em (map T mx) md idx W2 (T_len x Hl) Hx). rewrite Hw. apply oc_y_T; auto.
      - assert (Hoc2 : is_OCNLMS o2 = false).
        { unfold is_OCNLMS in *. destruct (o_ext o1); try discriminate; simpl in Hx;
            repeat match goal with H : _ /\ _ |- _ => destruct H | H : exists _, _ |- _ => destruct H end; rewrite ?Hx, ?H; reflexivity. }
        rewrite (pred_out_R solve n o2), (pred_out_R solve n o1) by (auto; apply T_len; auto). rewrite Hw. apply T_dot; auto.
    Qed.

    Lemma adapt_T o1 o2 d x : sym_rel o1 o2 -> length x = n ->
      snd (adapt d (T x) o2) = snd (adapt d x o1) /\
      (snd (adapt d x o1) = Ok tt -> sym_rel (fst (adapt d x o1)) (fst (adapt d (T x) o2))).
    Proof.
      intros (W1 & W2 & Hw & Hmu & Hx) Hl. pose proof (T_len x Hl) as HlT.
      destruct (adapt_ok n o1 d x W1 Hl) as (p1 & r1 & E1 & Wp1 & _). destruct (adapt_ok n o2 d (T x) W2 HlT) as (p2 & r2 & E2 & Wp2 & _).
      assert (Hfin : forall q1 q2 s1 s2, adapt d x o1 = (q1, s1) -> adapt d (T x) o2 = (q2, s2) -> s2 = s1 ->
        (s1 = Ok tt -> o_w q2 = T (o_w q1) /\ o_mu q2 = o_mu q1 /\ ext_rel (o_ext q1) (o_ext q2)) ->
        snd (adapt d (T x) o2) = snd (adapt d x o1) /\
        (snd (adapt d x o1) = Ok tt -> sym_rel (fst (adapt d x o1)) (fst (adapt d (T x) o2)))).
      { intros q1 q2 s1 s2 Ha Hb -> HH. rewrite E1 in Ha. rewrite E2 in Hb. injection Ha as -> ->. injection Hb as -> ->.
        rewrite E1, E2. cbn [fst snd]. split; auto. intros Hok. destruct (HH Hok) as (A & B & C). repeat (split; [assumption|]); assumption. }
      pose proof W1 as (L1 & N1 & X1). pose proof W2 as (L2 & N2 & X2).
      assert (He : d - Rdot (o_w o2) (T x) = d - Rdot (o_w o1) x) by (rewrite Hw, T_dot by auto; reflexivity).
      destruct (o_ext o1) as [| | | | eps | eps | eps | la al | la | eps ro le lx | eps R0
        | eps mem em mx md idx | ro a le lx lf lm | ro le lx lf lm | ro le lx lm | order xm dm ii id ym em ] eqn:E.
      1-9: match type of E with _ = ?c =>
        assert (Hc : ext_rel c c) by (first [reflexivity|split; [reflexivity|apply Hx]]);
        assert (Ec : o_ext o2 = c) by (first [exact Hx|apply Hx]);
        destruct (textbook c (o_mu o1) (d - Rdot (o_w o1) x) x) as [dw|] eqn:Et; [|discriminate Et];
        pose proof (textbook_length c _ _ _ _ Et) as Ldw;
        pose proof (textbook_T c (o_mu o1) (d - Rdot (o_w o1) x) x dw Hl Hc Et) as Et2;
        eapply Hfin;
          [apply (adapt_textbook solve o1 d x dw); [congruence|rewrite E; exact Et]
          |apply (adapt_textbook solve o2 d (T x) (T dw)); [congruence|rewrite Ec, He, Hmu; exact Et2]
          |reflexivity
          |intros _; cbn [set_w o_w o_mu o_ext]; split;
             [rewrite Hw; apply vadd_T; [exact L1|rewrite Ldw; exact Hl]|split; [exact Hmu|rewrite E, Ec; exact Hc]]] end.
      - cbn [ext_rel] in Hx. simpl in X1.
        eapply Hfin; [apply (adapt_GNGD n o1 d x eps ro le lx W1 Hl E)|apply (adapt_GNGD n o2 d (T x) eps ro le (T lx) W2 HlT Hx)|reflexivity|].
        intros _. cbn [set_w set_ext o_w o_mu o_ext ext_rel].
        change (nsub d (ndot (o_w o2) (T x))) with (d - Rdot (o_w o2) (T x)). rewrite He, Hmu.
        change (nsub d (ndot (o_w o1) x)) with (d - Rdot (o_w o1) x). set (e := d - Rdot (o_w o1) x).
        assert (Hg : gngd_eps (o_mu o1) eps ro le e (T lx) (T x) = gngd_eps (o_mu o1) eps ro le e lx x).
        { unfold gngd_eps. change (@ndot R (RNum solve)) with Rdot. rewrite !T_dot by auto. reflexivity. }
        rewrite Hg. split; [|split; auto].
        change (@ndot R (RNum solve)) with Rdot. rewrite T_dot by auto. rewrite Hw. change (@vscale R (RNum solve)) with vsc.
        rewrite <- T_sc by auto. apply vadd_T; auto. rewrite vsc_length; auto.
      - cbn [ext_rel] in Hx. destruct Hx as (R2 & Ex2 & HR2 & HR). simpl in X1.
        assert (HR1 : shape n n R0) by exact X1.
        destruct (neqb (o_mu o1) n0) eqn:Hz.
        { eapply Hfin; [apply (adapt_RLS_mu0 n o1 d x eps R0 W1 Hl E Hz)|apply (adapt_RLS_mu0 n o2 d (T x) eps R2 W2 HlT Ex2); rewrite Hmu; exact Hz|reflexivity|discriminate]. }
        eapply Hfin; [apply (adapt_RLS n o1 d x eps R0 W1 Hl E Hz)|apply (adapt_RLS n o2 d (T x) eps R2 W2 HlT Ex2); rewrite Hmu; exact Hz|reflexivity|].
        intros _. cbn [set_w set_ext o_w o_mu o_ext ext_rel].
        change (nsub d (ndot (o_w o2) (T x))) with (d - Rdot (o_w o2) (T x)). rewrite He, Hmu.
        change (nsub d (ndot (o_w o1) x)) with (d - Rdot (o_w o1) x). set (e := d - Rdot (o_w o1) x).
        assert (LR : forall v, length (mv R0 v) = n) by (intros; rewrite (mv_len solve); apply HR1).
        assert (HR' : forall v, length v = n -> mv (rls_R (o_mu o1) R2 (T x)) (T v) = T (mv (rls_R (o_mu o1) R0 x) v)).
        { intros v Hv. rewrite !(rls_mv solve (o_mu o1) n) by auto. unfold rls_den. rewrite !HR by auto. rewrite !T_dot by auto.
          rewrite T_sc, T_sub, T_sc; rewrite ?vsc_length; auto. apply vsub_length; rewrite ?vsc_length; auto. }
        split; [|split; auto].
        + rewrite HR' by auto. rewrite Hw. pose proof (rls_shape solve (o_mu o1) n R0 x HR1 Hl) as HS.
          assert (Hm : forall v : rvec, map (fun a => nmul a e) v = vsc e v) by (intros; apply map_ext; intros; apply Rmult_comm).
          rewrite !Hm, <- T_sc by (rewrite (mv_len solve); apply HS). apply vadd_T; auto. rewrite vsc_length, (mv_len solve). apply HS.
        + exists (rls_R (o_mu o1) R2 (T x)). split; auto. split; [apply rls_shape; auto|exact HR'].
      - cbn [ext_rel] in Hx. simpl in X1. destruct X1 as (Hm & Hlx & HF & Hld & Hi).
        eapply Hfin; [apply (adapt_OCNLMS n o1 d x eps mem em mx md idx W1 Hl E)|apply (adapt_OCNLMS n o2 d (T x) eps mem em (map T mx) md idx W2 HlT Hx)|reflexivity|].
        intros _. cbn [set_w set_ext o_w o_mu o_ext ext_rel]. rewrite Hmu.
        rewrite !set_nth_map. assert (HF1 : rowsl n (set_nth (oc_idx mem idx) x mx)) by (apply set_nth_Forall; auto).
        rewrite Hw, !oc_y_T, !oc_read_T by auto. cbn [fst snd].
        set (y := oc_y n (o_w o1) em mx md idx x).
        set (rd := oc_read n (oc_em mem em idx) (set_nth (oc_idx mem idx) x mx) md (oc_idx mem idx)).
        assert (Lr : length (snd rd) = n) by apply oc_read_length.
        change (map2 nsub (T x) (T (snd rd))) with (vsub (T x) (T (snd rd))). change (map2 nsub x (snd rd)) with (vsub x (snd rd)).
        assert (Lv : length (vsub x (snd rd)) = n) by (apply vsub_length; auto).
        rewrite <- T_sub by auto. change (@ndot R (RNum solve)) with Rdot. rewrite T_dot by auto.
        change (@vscale R (RNum solve)) with vsc. rewrite <- T_sc by auto.
        split; [|split; auto]. apply vadd_T; auto. rewrite vsc_length; auto.
      - cbn [ext_rel] in Hx. simpl in X1. destruct X1 as (Hlx & Hlf).
        eapply Hfin; [apply (adapt_Ang n o1 d x ro a le lx lf lm W1 Hl E)|apply (adapt_Ang n o2 d (T x) ro a le (T lx) (T lf) lm W2 HlT Hx)|reflexivity|].
        intros _. cbn [set_w set_ext o_w o_mu o_ext ext_rel].
        change (nsub d (ndot (o_w o2) (T x))) with (d - Rdot (o_w o2) (T x)). rewrite He, Hmu.
        change (nsub d (ndot (o_w o1) x)) with (d - Rdot (o_w o1) x). set (e := d - Rdot (o_w o1) x).
        change (@vscale R (RNum solve)) with vsc. change (@nadd R (RNum solve)) with Rplus. change (@ndot R (RNum solve)) with Rdot.
        rewrite <- !T_sc, vadd_T by (rewrite ?vsc_length; auto).
        assert (Lf : length (map2 Rplus (vsc a lf) (vsc le lx)) = n) by (apply (vadd_length (vsc a lf)); rewrite vsc_length; auto).
        rewrite T_dot by auto.
        split; [|split; auto]. rewrite Hw. apply vadd_T; auto. rewrite vsc_length; auto.
      - cbn [ext_rel] in Hx. simpl in X1. destruct X1 as (Hlx & Hlf).
        eapply Hfin; [apply (adapt_Benveniste n o1 d x ro le lx lf lm W1 Hl E)|apply (adapt_Benveniste n o2 d (T x) ro le (T lx) (T lf) lm W2 HlT Hx)|reflexivity|].
        intros _. cbn [set_w set_ext o_w o_mu o_ext ext_rel].
        change (nsub d (ndot (o_w o2) (T x))) with (d - Rdot (o_w o2) (T x)). rewrite He, Hmu.
        change (nsub d (ndot (o_w o1) x)) with (d - Rdot (o_w o1) x). set (e := d - Rdot (o_w o1) x).
        assert (L1' : length (vsub lf (vsc (lm * Rdot lx lf) lx)) = n) by (apply vsub_length; rewrite ?vsc_length; auto).
        assert (Hfi : ben_fi n lm le (T lx) (T lf) = T (ben_fi n lm le lx lf)).
        { rewrite !ben_closed by auto. rewrite T_dot, T_add, T_sub, !T_sc by (rewrite ?vsc_length; auto). reflexivity. }
        assert (Lf : length (ben_fi n lm le lx lf) = n) by (rewrite ben_closed by auto; apply vadd_length; rewrite ?vsc_length; auto).
        rewrite Hfi. change (@vscale R (RNum solve)) with vsc. change (@nadd R (RNum solve)) with Rplus. change (@ndot R (RNum solve)) with Rdot.
        rewrite T_dot by auto. rewrite <- T_sc by auto.
        split; [|split; auto]. rewrite Hw. apply vadd_T; auto. rewrite vsc_length; auto.
      - cbn [ext_rel] in Hx. simpl in X1.
        eapply Hfin; [apply (adapt_Mathews n o1 d x ro le lx lm W1 Hl E)|apply (adapt_Mathews n o2 d (T x) ro le (T lx) lm W2 HlT Hx)|reflexivity|].
        intros _. cbn [set_w set_ext o_w o_mu o_ext ext_rel].
        change (nsub d (ndot (o_w o2) (T x))) with (d - Rdot (o_w o2) (T x)). rewrite He, Hmu.
        change (nsub d (ndot (o_w o1) x)) with (d - Rdot (o_w o1) x). set (e := d - Rdot (o_w o1) x).
        change (@vscale R (RNum solve)) with vsc. change (@nadd R (RNum solve)) with Rplus. change (@ndot R (RNum solve)) with Rdot.
        rewrite T_dot by auto. rewrite <- T_sc by auto.
        split; [|split; auto]. rewrite Hw. apply vadd_T; auto. rewrite vsc_length; auto.
      - cbn [ext_rel] in Hx. destruct Hx as (xm2 & Ex2 & Hcol). rewrite Ex2 in X2. simpl in X1, X2.
        destruct X1 as (Ho & Hlx & HF & Hld). destruct X2 as (_ & Hlx2 & HF2 & _).
        pose proof (push_rel order xm xm2 x Ho HF HF2 Hlx Hlx2 Hl Hcol) as Hp.
        pose proof (adapt_AP_step n o1 d x order xm dm ii id ym em W1 Hl E) as A1.
        pose proof (adapt_AP_step n o2 d (T x) order xm2 dm ii id ym em W2 HlT Ex2) as A2. cbv zeta in A1, A2.
        set (P1 := push_x order xm x) in *. set (P2 := push_x order xm2 (T x)) in *.
        assert (LP1 : length P1 = n) by (apply push_x_length; auto).
        assert (LP2 : length P2 = n) by (apply push_x_length; auto).
        assert (FP1 : rowsl order P1) by (apply push_x_rows; auto).
        assert (FP2 : rowsl order P2) by (apply push_x_rows; auto).
        assert (Lc : forall j, length (column j P1) = n) by (intros; rewrite (column_len solve); auto).
        pose proof (transpose_rel order P1 P2 Hp) as HT.
        assert (Hin : forall r, In r (transpose order P1) -> length r = n).
        { intros r Hr. unfold transpose in Hr. apply in_map_iff in Hr as (j & <- & _). apply Lc. }
        assert (HY : mv (transpose order P2) (o_w o2) = mv (transpose order P1) (o_w o1)).
        { rewrite HT, Hw. unfold mv. rewrite map_map. apply map_ext_in. intros r Hr. apply T_dot; auto. }
        assert (HG : mm order (transpose order P2) P2 = mm order (transpose order P1) P1).
        { unfold mm. rewrite HT, map_map. apply map_ext_in. intros r Hr. rewrite map_map. apply map_ext_in. intros r' Hr'. apply T_dot; auto. }
        rewrite HG, HY in A2.
        destruct (nsolve _ ii) as [G|] eqn:Es || destruct (nsolve _ id) as [G|] eqn:Es.
        + eapply Hfin; [exact A1|exact A2|reflexivity|]. intros _. cbn [set_w set_ext o_w o_mu o_ext ext_rel].
          split; [|split; [exact Hmu|exists P2; split; [reflexivity|exact Hp]]].
          set (z := mv G _). rewrite Hmu, Hw.
          assert (Hz : mv P2 z = T (mv P1 z)).
          { rewrite (mv_lincomb n order P2), (mv_lincomb n order P1) by auto. rewrite T_lincomb by auto. apply lincomb_ext. exact Hp. }
          rewrite Hz. change (@vscale R (RNum solve)) with vsc. rewrite <- T_sc by (rewrite (mv_len solve); auto).
          apply vadd_T; auto. rewrite vsc_length, (mv_len solve); auto.
        + eapply Hfin; [exact A1|exact A2|reflexivity|discriminate].
    Qed.

    Lemma run_T o1 o2 d x : sym_rel o1 o2 -> rowsl n x ->
      snd (run d (map T x) o2) = rmap (fun '(y, e, w) => (y, e, map T w)) (snd (run d x o1)).
    Proof.
      intros HR Hx.
      destruct (Nat.eq_dec (length d) (length x)) as [Hl|Hl].
      2:{ rewrite !run_bad_length by (rewrite ?map_length; assumption). reflexivity. }
      destruct x as [|x0 x'] eqn:Ex; [destruct d; [|discriminate]; reflexivity|].
      rewrite <- Ex in *. assert (Hne : x <> []) by congruence. clear Ex.
      destruct (run_rel n n sym_rel (fun _ _ => True) (fun a => a) T T) with (o1 := o1) (o2 := o2) (d := d) (x := x) as (H1 & _); auto.
      - intros a b (A & B & C & _); auto.
      - intros a b d0 xk Hab Hl0 _. split; [auto|]. split; [apply pred_out_T; auto|]. apply adapt_T; auto.
      - rewrite map_id in H1. rewrite H1. destruct (snd (run d x o1)) as [[[y e] w]|]; [|reflexivity]. cbn [rmap]. rewrite !map_id. reflexivity.
    Qed.

    Definition sign_class (k : kind) : bool := match k with KSSLMS | KNSSLMS => true | _ => false end.
    Lemma new_filter_T rng k (kw : kwargs R) v o1 o2 :
      rng_ok rng -> sane_kw kw -> kw_n kw = Some (Z.of_nat n) -> (sign_class k = true -> coordinatewise) ->
      new_filter rng k (with_weights kw v) = Ok o1 -> new_filter rng k (with_weights kw (T v)) = Ok o2 -> sym_rel o1 o2.
    Proof.
      intros Hrng Hsane Hn Hsg H1 H2.
      assert (W1 : wf n o1) by (eapply new_filter_wf; [exact Hrng| | |exact H1]; auto).
      assert (W2 : wf n o2) by (eapply new_filter_wf; [exact Hrng| | |exact H2]; auto).
      split; auto. split; auto. revert H1 H2 W1 W2.
      unfold new_filter. cbn [with_weights kw_other kw_n kw_mu kw_w]. rewrite Hn.
      destruct (kw_other kw); [discriminate|].
      replace (existsb (fun p => kw_given (with_weights kw (T v)) p && negb (accepts k p)) all_params)
        with (existsb (fun p => kw_given (with_weights kw v) p && negb (accepts k p)) all_params) by reflexivity.
      destruct (existsb _ _); [discriminate|].
      match goal with |- match ?m with _ => _ end = _ -> _ => destruct m as [mu|]; [|discriminate] end.
      cbn [opt]. unfold init_base. destruct (Z.of_nat n =? -1)%Z; [discriminate|].
      unfold init_weights. destruct (Z.of_nat (length v) =? Z.of_nat n)%Z; [|discriminate].
      destruct (Z.of_nat (length (T v)) =? Z.of_nat n)%Z; [|discriminate].
      cbn [rmap rbind]. rewrite Nat2Z.id.
      replace (init_ext k (with_weights kw (T v)) n mu)
        with (init_ext k (with_weights kw v) n mu) by (destruct k; reflexivity).
      destruct (init_ext k (with_weights kw v) n mu) as [x|] eqn:Ex; [|discriminate].
      cbn [rmap]. intros [= <-] [= <-] W1 W2. unfold set_ext; cbn [o_w o_n o_mu o_hist o_ext]. split; auto. split; auto.
      assert (Hz : T (zeros n) = zeros n) by apply T_zero.
      destruct k; cbn [init_ext] in Ex; try (injection Ex as <-); cbn [ext_rel]; rewrite ?Hz; auto.
      - (* AP *) eexists. split; [reflexivity|]. intros j Hj.
        assert (Hc : column j (zeros2 n (opt (kw_order kw) 5%nat) : rmat) = repeat 0 n).
        { unfold column, zeros2, zeros. clear. induction n as [|m IH]; [reflexivity|]. cbn [repeat map]. f_equal; [apply nth_repeat|exact IH]. }
        rewrite Hc. symmetry. apply T_zero.
      - (* OCNLMS *) f_equal. unfold zeros2. set (m := opt _ _). clearbody m. clear - Hz. induction m as [|m IH]; simpl; auto. rewrite <- IH, Hz. reflexivity.
      - (* RLS *) cbv zeta in Ex. match type of Ex with (if ?b then _ else _) = _ => destruct b end; [discriminate|].
        injection Ex as <-. cbn [ext_rel]. eexists. split; [reflexivity|]. split; [apply mscale_shape, identity_shape|].
        intros u Hu. rewrite !(mv_mscale solve), !(mv_identity solve) by (auto; apply T_len; auto). symmetry. apply T_sc; auto.
    Qed.
  End Iso.

  (** *** Permutations *)
  Lemma Rsum_perm u v : Permutation u v -> Rsum u = Rsum v.
  Proof. induction 1; simpl; lra. Qed.
  Lemma permute_len n p v : Permutation p (seq 0 n) -> length (permute p v) = n.
  Proof. intros H. unfold permute. rewrite map_length, (Permutation_length H), seq_length. reflexivity. Qed.
  Lemma permute_dot n p u v : Permutation p (seq 0 n) -> length u = n -> length v = n -> Rdot (permute p u) (permute p v) = Rdot u v.
  Proof.
    intros H Hu Hv.
    assert (E : forall q, Rdot (permute q u) (permute q v) = Rsum (map (fun i => nth i u 0 * nth i v 0) q)).
    { induction q as [|i q IH]; [reflexivity|]. unfold permute in *. cbn [map Rdot Rsum]. rewrite IH. reflexivity. }
    rewrite E, (Rsum_perm _ _ (Permutation_map _ H)), <- E.
    assert (Eid : forall w : rvec, length w = n -> permute (seq 0 n) w = w).
    { intros w Hw. apply nth_ext0; unfold permute; rewrite map_length, seq_length; [auto|]. intros i Hi.
      rewrite (map_nth_lt _ _ _ 0%nat) by (rewrite seq_length; auto). rewrite seq_nth by auto. reflexivity. }
    rewrite !Eid by auto. reflexivity.
  Qed.
  Lemma permute_add p u v : length u = length v -> permute p (vadd u v) = vadd (permute p u) (permute p v).
  Proof.
    intros H. induction p as [|i p IH]; [reflexivity|]. unfold permute, vadd in *. cbn [map map2]. rewrite IH. f_equal. apply nth_vadd; auto.
  Qed.
  Lemma permute_map n p f v : Permutation p (seq 0 n) -> length v = n -> permute p (map f v) = map f (permute p v).
  Proof.
    intros H Hv. unfold permute. rewrite map_map. apply map_ext_in. intros i Hi.
    apply (Permutation_in _ H) in Hi. apply in_seq in Hi. rewrite (map_nth_lt f v i 0) by lia. reflexivity.
  Qed.

  Theorem C30_permutation : forall rng k (kw : kwargs R) n p v (o1 o2 : obj) d x,
    Permutation p (seq 0 n) -> rng_ok rng -> sane_kw kw -> kw_n kw = Some (Z.of_nat n) ->
    new_filter rng k (with_weights kw v) = Ok o1 ->
    new_filter rng k (with_weights kw (permute p v)) = Ok o2 ->
    rows_of n x ->
    snd (run d (map (permute p) x) o2) =
      rmap (fun '(y, e, w) => (y, e, map (permute p) w)) (snd (run d x o1)).
  Proof.
    intros rng k kw n p v o1 o2 d x Hp Hrng Hsane Hn H1 H2 Hx.
    assert (TL : forall w : rvec, length w = n -> length (permute p w) = n) by (intros; apply permute_len; auto).
    assert (TS : forall c w, length w = n -> permute p (vsc c w) = vsc c (permute p w)) by (intros c w Hw; apply (permute_map n); auto).
    assert (TA : forall u w, length u = n -> length w = n -> permute p (vadd u w) = vadd (permute p u) (permute p w))
      by (intros; apply permute_add; congruence).
    assert (TD : forall u w, length u = n -> length w = n -> Rdot (permute p u) (permute p w) = Rdot u w)
      by (intros; apply (permute_dot n); auto).
    apply (run_T n (permute p)); auto.
    eapply (new_filter_T n (permute p)); eauto. intros _ f w Hw. apply (permute_map n); auto.
  Qed.

  (** *** Rotations and reflections *)
  Theorem C30_rotation : forall rng k (kw : kwargs R) n Q v (o1 o2 : obj) d x,
    orthogonal n Q -> sign_class k = false -> rng_ok rng -> sane_kw kw -> kw_n kw = Some (Z.of_nat n) ->
    new_filter rng k (with_weights kw v) = Ok o1 ->
    new_filter rng k (with_weights kw (rotate Q v)) = Ok o2 ->
    rows_of n x ->
    snd (run d (map (rotate Q) x) o2) =
      rmap (fun '(y, e, w) => (y, e, map (rotate Q) w)) (snd (run d x o1)).
  Proof.
    intros rng k kw n Q v o1 o2 d x (HQ & HO) Hk Hrng Hsane Hn H1 H2 Hx.
    assert (TL : forall w : rvec, length w = n -> length (rotate Q w) = n) by (intros; unfold rotate; rewrite map_length; apply HQ).
    assert (TS : forall c w, length w = n -> rotate Q (vsc c w) = vsc c (rotate Q w)) by (intros c w _; apply (RMat.mv_vsc solve)).
    assert (TA : forall u w, length u = n -> length w = n -> rotate Q (vadd u w) = vadd (rotate Q u) (rotate Q w))
      by (intros; apply (mv_vadd solve n n); auto).
    assert (TD : forall u w, length u = n -> length w = n -> Rdot (rotate Q u) (rotate Q w) = Rdot u w).
    { intros u w Hu Hw. rewrite (Rdot_sumn n) by auto.
      rewrite (sumn_ext n _ (fun k => sumn n (fun i => sumn n (fun j => (nth i u 0 * nth j w 0) * (ent Q k i * ent Q k j))))).
      2:{ intros l Hl. change (rotate Q u) with (mv Q u). change (rotate Q w) with (mv Q w). rewrite !(mv_ent solve n n) by auto.
          rewrite <- sumn_scal_r. apply sumn_ext. intros i Hi. rewrite <- sumn_scal. apply sumn_ext. intros j Hj. ring. }
      rewrite sumn_swap. rewrite (Rdot_sumn n) by auto. apply sumn_ext. intros i Hi. rewrite sumn_swap.
      rewrite (sumn_ext n _ (fun j => (if Nat.eqb i j then 1 else 0) * (nth i u 0 * nth j w 0))).
      - apply (sumn_delta n i (fun j => nth i u 0 * nth j w 0)); auto.
      - intros j Hj. rewrite sumn_scal, HO by auto. unfold delta. ring. }
    apply (run_T n (rotate Q)); auto.
    eapply (new_filter_T n (rotate Q)); eauto. intros Hc; congruence.
  Qed.

  (** the sign classes depend on the choice of axes *)
  Theorem C30_rotation_sign_refuted : exists (o1 o2 : obj) Q d x,
    reachable 2 o1 /\ reachable 2 o2 /\ o_ext o1 = XSSLMS /\ o_ext o2 = XSSLMS /\ o_mu o1 = o_mu o2 /\
    orthogonal 2 Q /\ o_w o2 = rotate Q (o_w o1) /\ length x = 2%nat /\
    o_w (fst (adapt d (rotate Q x) o2)) <> rotate Q (o_w (fst (adapt d x o1))).
  Proof.
    pose proof (fresh2_reachable solve 1 None None None KSSLMS XSSLMS eq_refl) as Hr.
    exists (fresh2 1 XSSLMS), (fresh2 1 XSSLMS), [[3 / 5; - (4 / 5)]; [4 / 5; 3 / 5]], 1, [5; 0].
    split; auto. split; auto. split; [reflexivity|]. split; [reflexivity|]. split; [reflexivity|].
    split; [|split; [|split; [reflexivity|]]].
    - split; [split; [reflexivity|repeat constructor]|]. intros i j Hi Hj.
      destruct i as [|[|i]]; [| |lia]; (destruct j as [|[|j]]; [| |lia]); unfold ent, delta; cbn [sumn nth Nat.eqb]; lra.
    - unfold rotate, fresh2. cbn [map Rdot o_w]. f_equal; [lra|f_equal; lra].
    - rewrite (adapt_textbook solve (fresh2 1 XSSLMS) 1 [5; 0] _ eq_refl eq_refl).
      rewrite (adapt_textbook solve (fresh2 1 XSSLMS) 1 (rotate [[3 / 5; - (4 / 5)]; [4 / 5; 3 / 5]] [5; 0]) _ eq_refl eq_refl).
      assert (P : forall a, 0 < a -> Rsgn a = 1).
      { intros a Ha. unfold Rsgn. destruct (Rlt_dec a 0); [lra|]. destruct (Rlt_dec 0 a); [reflexivity|lra]. }
      assert (Z : Rsgn 0 = 0) by (unfold Rsgn; destruct (Rlt_dec 0 0); lra).
      cbn [fst set_w o_w fresh2 o_mu rotate map Rdot vadd map2].
      rewrite Z. repeat match goal with |- context [Rsgn ?a] => rewrite (P a) by lra end.
      intros H. injection H as H1 H2. lra.
  Qed.

  (** *** The hypotheses can be met, for every class *)
  Example C30_hypotheses : forall k, exists (kw : kwargs R) o1 o2, sane_kw kw /\ kw_n kw = Some 2%Z /\
    new_filter rngR k (with_weights kw [3; 4]) = Ok o1 /\ new_filter rngR k (with_weights kw (permute [1; 0]%nat [3; 4])) = Ok o2 /\
    o_w o1 = [3; 4] /\ o_w o2 = [4; 3] /\ Permutation [1; 0]%nat (seq 0 2).
  Proof.
    intros k. exists (kwE 1 ws0 (match k with KRLS => Some 1 | _ => None end) None None).
    destruct k;
      (do 2 eexists; split; [split; intros ? Hs; discriminate Hs|]; split; [reflexivity|];
       split; [unfold new_filter; cbn; rewrite ?Reqb_1_0; reflexivity|];
       split; [unfold new_filter; cbn; rewrite ?Reqb_1_0; reflexivity|];
       split; [reflexivity|]; split; [reflexivity|apply perm_swap]).
  Qed.
  Example C30_rotation_hypotheses : orthogonal 2 [[3 / 5; - (4 / 5)]; [4 / 5; 3 / 5]] /\
    rotate [[3 / 5; - (4 / 5)]; [4 / 5; 3 / 5]] [5; 0] = [3; 4] /\ rows_of 2 [[1; 2]; [3; 4]].
  Proof.
    split; [|split].
    - split; [split; [reflexivity|repeat constructor]|]. intros i j Hi Hj.
      destruct i as [|[|i]]; [| |lia]; (destruct j as [|[|j]]; [| |lia]); unfold ent, delta; cbn [sumn nth Nat.eqb]; lra.
    - unfold rotate. cbn [map Rdot]. f_equal; [lra|f_equal; lra].
    - repeat constructor.
  Qed.
End Sym.
