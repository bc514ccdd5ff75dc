(** Properties C19, C20, C22, C27: fixed points, zero rate, reductions between classes, symmetry; exact
    real arithmetic.  [solve] (np.linalg.solve) is an arbitrary function. *)
From Coq Require Import Reals Lra Psatz QArith.
From Verif Require Import Py Num NumQ Numpy Filters Registry Spec StructProofs RunProofs Reach RVec RFilter Steps
  PropsRegistry PropsStability PropsRun.
Open Scope R_scope.

Section Props.
  Variable solve : list rvec -> list rvec -> option (list rvec).
  #[local] Hint Extern 0 (Num R) => exact (RNum solve) : typeclass_instances.
  Notation obj := (obj R).

  (** ** Specification *)
  (** the regularisation that keeps the denominators of the class away from 0 (so that Coq's total division
      and numpy's nan/inf do not differ); RLS also needs a positive forgetting factor, GMCC an exponent that
      does not make 0 ** (alpha - 1) infinite, OCNLMS a memory whose centering mean is not that of an empty array *)
  Definition regular (o : obj) : Prop :=
    match o_ext o with
    | XNLMS eps | XNLMF eps | XNSSLMS eps | XGNGD eps _ _ _ => 0 < eps
    | XOCNLMS eps mem _ _ _ _ => 0 < eps /\ (2 <= mem)%nat
    | XGMCC _ alpha => 1 <= alpha
    | XRLS eps _ => 0 < eps /\ 0 < o_mu o
    | _ => True
    end.

  (** the targets stored in an AP memory are those the weights produce for the stored inputs (true of an
      empty memory) *)
  Definition ap_memory_explained (w : rvec) (o : obj) : Prop :=
    match o_ext o with
    | XAP order xm dm _ _ _ _ => forall j, (j < order)%nat -> nth j dm 0 = Rdot (column j xm) w
    | _ => True
    end.

  (** ** Helpers *)
  Lemma nth_map2_sub (d y : rvec) k : length d = length y -> (k < length d)%nat ->
    nth k (map2 Rminus d y) 0 = nth k d 0 - nth k y 0.
  Proof.
    revert y k; induction d as [|a d IH]; intros [|b y] [|k] Hl Hk; simpl in *; try lia; auto.
    apply IH; lia.
  Qed.

  Lemma run_lengths n (o o' : obj) d x y e w : wf n o -> rowsl n x -> run d x o = (o', Ok (y, e, w)) ->
    length d = length x /\ x <> [] /\ length y = length x /\ length e = length x /\ length w = length x /\
    y = ytrace d x o /\ e = map2 Rminus d y /\ w = wtrace d x o /\ snd (adapt_all d x o) = Ok tt /\
    o_w o' = o_w (fst (adapt_all d x o)).
  Proof.
    intros Hwf Hx E.
    assert (Hl : length d = length x).
    { destruct (Nat.eq_dec (length d) (length x)) as [|Hc]; auto.
      rewrite run_bad_length in E by assumption; discriminate. }
    assert (Hne : x <> []) by (intros ->; destruct d; discriminate).
    destruct (run_eq n o d x Hwf Hx Hl Hne) as (h & E' & _).
    rewrite E in E'. destruct (snd (adapt_all d x o)) as [[]|] eqn:HO; [|discriminate].
    simpl in E'. injection E' as -> -> -> ->.
    pose proof (ytrace_length d x o Hl) as Hy. pose proof (wtrace_length d x o Hl) as Hw.
    repeat split; auto. erewrite map2_length_eq; eauto; congruence.
  Qed.

  (** a run in which every step keeps the weights *)
  Lemma run_frozen n (Inv : obj -> Prop) (P : R -> rvec -> Prop) w0 :
    (forall o, Inv o -> o_w o = w0) ->
    (forall o d x, Inv o -> wf n o -> length x = n -> P d x -> snd (adapt d x o) = Ok tt -> Inv (fst (adapt d x o))) ->
    forall (o o' : obj) d x y e w, Inv o -> wf n o -> rowsl n x ->
    (forall k, (k < length x)%nat -> P (nth k d 0) (nth k x [])) ->
    run d x o = (o', Ok (y, e, w)) ->
    w = repeat w0 (length x) /\ o_w o' = w0 /\ length d = length x /\ length y = length x /\ length e = length x /\
    forall k, (k < length x)%nat -> exists s, Inv s /\ wf n s /\ frame o s /\
      nth k y 0 = pred_out s (nth k x []) /\ nth k e 0 = nth k d 0 - nth k y 0.
  Proof.
    intros HI Hstep o o' d x y e w Ho Hwf Hx HP E.
    destruct (run_lengths n o o' d x y e w Hwf Hx E) as (Hl & Hne & Hly & Hle & Hlw & Hy & He & Hw & HO & Hw').
    pose proof (run_inv n Inv P Hstep d x o Ho Hwf Hx Hl HP HO) as Hall.
    split; [|split; [|split; [|split; [|split]]]]; auto.
    - apply (nth_ext _ _ [] []); [rewrite repeat_length; auto|]. intros k Hk. rewrite Hlw in Hk.
      rewrite (nth_indep (repeat w0 (length x)) [] w0) by (rewrite repeat_length; auto). rewrite nth_repeat.
      rewrite Hw, wtrace_nth by auto. apply HI, Hall; lia.
    - rewrite Hw'. replace (fst (adapt_all d x o)) with (state_after (length x) d x o).
      + apply HI, Hall; lia.
      + unfold state_after; rewrite !firstn_all2 by lia; reflexivity.
    - intros k Hk. destruct (Hall k ltac:(lia)) as (H1 & H2). exists (state_after k d x o).
      split; [auto|]. split; [auto|].
      split.
      { unfold state_after. destruct (adapt_all_ok n (firstn k d) (firstn k x) o Hwf) as (s & r & -> & _ & _ & Hf & _);
          [apply firstn_rows; auto|exact Hf]. }
      split; [rewrite Hy; exact (ytrace_nth d x o k Hl Hk HO)|].
      rewrite He. apply nth_map2_sub; congruence.
  Qed.

  Lemma pred_out_R n (o : obj) x : wf n o -> length x = n -> is_OCNLMS o = false ->
    pred_out o x = Rdot (o_w o) x.
  Proof.
    intros Hwf Hl Hoc. destruct (is_AP o) eqn:Hap.
    - unfold pred_out; rewrite Hap. apply Rdot_comm.
    - exact (pred_out_plain n o x Hwf Hl Hap Hoc).
  Qed.

  Lemma vadd_zero w x c : length w = length x -> c = 0 -> vadd w (vsc c x) = w.
  Proof. intros Hl ->; apply vadd_vsc_0; auto. Qed.

  Lemma mv_zero (A : list rvec) k : mv A (repeat 0 k) = repeat 0 (length A).
  Proof. unfold mv; induction A as [|r A IH]; [reflexivity|]. cbn [map length repeat]. f_equal; [apply Rdot_zero_r|exact IH]. Qed.

  Lemma vsc_repeat0 c k : vsc c (repeat 0 k) = repeat 0 k.
  Proof. unfold vsc; induction k; simpl; auto. rewrite IHk, Rmult_0_r; reflexivity. Qed.

  Lemma nth_firstn {A} (l : list A) k j dflt : (j < k)%nat -> nth j (firstn k l) dflt = nth j l dflt.
  Proof. revert k j; induction l as [|a l IH]; intros [|k] [|j] H; simpl; auto; try lia. apply IH; lia. Qed.

  Lemma column_push order (xm : list rvec) x j : length x = length xm -> (S j < order)%nat -> rowsl order xm ->
    column (S j) (push_x order xm x) = column j xm.
  Proof.
    intros Hl Hj HF; unfold column, push_x. revert x Hl.
    induction HF as [|r xm Hr HF IH]; intros [|a x] Hl; simpl in *; try discriminate; auto.
    f_equal; [|apply IH; lia].
    apply nth_firstn; lia.
  Qed.

  Lemma Rsgn_0 : Rsgn 0 = 0.
  Proof. unfold Rsgn; destruct (Rlt_dec 0 0); lra. Qed.

  Lemma map_const0 (f : R -> R) x : (forall a, f a = 0) -> map f x = repeat 0 (length x).
  Proof. intros H; induction x as [|a x IH]; simpl; auto. rewrite H, IH; reflexivity. Qed.

  Lemma textbook_e0 c mu x dw : textbook c mu 0 x = Some dw -> dw = repeat 0 (length x).
  Proof.
    destruct c; simpl; intros H; try discriminate; injection H as <-; auto;
      try (apply map_const0; intros a; rewrite ?Rsgn_0; ring);
      match goal with |- vsc ?c _ = _ => replace c with 0; [apply vsc_zero|] end; rewrite ?Rmult_0_r, ?tanh_0, ?Rsgn_0; ring.
  Qed.

  Lemma textbook_mu0 c e x dw : textbook c 0 e x = Some dw -> dw = repeat 0 (length x).
  Proof.
    destruct c; simpl; intros H; try discriminate; injection H as <-; auto;
      try (apply map_const0; intros a; unfold Rdiv; ring);
      match goal with |- vsc ?c _ = _ => replace c with 0; [apply vsc_zero|] end; unfold Rdiv; ring.
  Qed.

  Lemma vscale_R c v : vscale c v = vsc c v.
  Proof. reflexivity. Qed.

  (** *** C19 *)
  Lemma explained_push order (xm : list rvec) (dm w0 x : rvec) d : (1 <= order)%nat -> length x = length xm ->
    rowsl order xm -> length dm = order ->
    (forall j, (j < order)%nat -> nth j dm 0 = Rdot (column j xm) w0) -> d = Rdot w0 x ->
    forall j, (j < order)%nat -> nth j (push_d order dm d) 0 = Rdot (column j (push_x order xm x)) w0.
  Proof.
    intros Ho Hl HF Hd Hex -> [|j] Hj; unfold push_d; cbn [nth].
    - pose proof (transpose_push_0 order xm x Ho Hl) as Ht.
      destruct order as [|k]; [lia|]. cbn [transpose seq map nth] in Ht. rewrite Ht. apply Rdot_comm.
    - rewrite column_push by auto. rewrite nth_firstn by lia. apply Hex; lia.
  Qed.

  Lemma explained_e order (xm : list rvec) (dm w0 : rvec) : length dm = order ->
    (forall j, (j < order)%nat -> nth j dm 0 = Rdot (column j xm) w0) ->
    map2 Rminus dm (mv (transpose order xm) w0) = repeat 0 order.
  Proof.
    intros Hd Hex.
    assert (Hlm : length (mv (transpose order xm) w0) = order) by (rewrite mv_length, transpose_length; reflexivity).
    apply nth_ext0; [rewrite repeat_length; apply map2_length_eq; auto|].
    intros j Hj. rewrite (map2_length_eq _ _ _ order) in Hj by auto.
    rewrite nth_map2_sub by (rewrite Hd, ?Hlm; auto). rewrite nth_repeat, Hex by auto.
    unfold mv, transpose. rewrite map_map.
    rewrite (nth_indep _ 0 ((fun j => Rdot (column j xm) w0) 0%nat)) by (rewrite map_length, seq_length; auto).
    rewrite (map_nth (fun j => Rdot (column j xm) w0)), seq_nth by auto. simpl. ring.
  Qed.

  Lemma adapt_frozen_e n w0 (o : obj) d x :
    o_w o = w0 /\ is_OCNLMS o = false /\ ap_memory_explained w0 o -> wf n o -> length x = n ->
    d = Rdot w0 x -> snd (adapt d x o) = Ok tt ->
    o_w (fst (adapt d x o)) = w0 /\ is_OCNLMS (fst (adapt d x o)) = false /\ ap_memory_explained w0 (fst (adapt d x o)).
  Proof.
    intros (Hw0 & Hoc & Hap) Hwf Hl Hd HO. pose proof Hwf as (Hw & Hn & Hx).
    assert (He : d - Rdot (o_w o) x = 0) by (rewrite Hw0, Hd; ring).
    destruct (o_ext o) as [| | | | eps | eps | eps | la al | la | eps ro le lx | eps R0
        | eps mem em mx md idx | ro a le lx lf lm | ro le lx lf lm | ro le lx lm | order xm dm ii id ym em ] eqn:E.
    1-9: match type of E with _ = ?c => destruct (textbook c (o_mu o) (d - Rdot (o_w o) x) x) as [dw|] eqn:Et;
           [|discriminate Et] end;
         rewrite (adapt_textbook solve o d x dw) by (rewrite ?E; auto; congruence);
         cbn [fst set_w o_w]; rewrite He in Et; apply textbook_e0 in Et; subst dw;
         (split; [rewrite vadd_zero_r by congruence; exact Hw0|]);
         unfold is_OCNLMS, ap_memory_explained; cbn [set_w o_ext]; rewrite E; split; auto.
    - rewrite (adapt_GNGD n o d x eps ro le lx Hwf Hl E). cbn [fst set_w set_ext o_w].
      change (nsub d (ndot (o_w o) x)) with (d - Rdot (o_w o) x). rewrite He.
      split; [|unfold is_OCNLMS, ap_memory_explained; cbn; auto].
      rewrite <- Hw0. apply vadd_zero; [congruence|simpl; ring].
    - destruct (neqb (o_mu o) n0) eqn:Hmu.
      { rewrite (adapt_RLS_mu0 n o d x eps R0 Hwf Hl E Hmu) in HO; discriminate. }
      rewrite (adapt_RLS n o d x eps R0 Hwf Hl E Hmu). cbn [fst set_w set_ext o_w].
      change (nsub d (ndot (o_w o) x)) with (d - Rdot (o_w o) x). rewrite He.
      split; [|unfold is_OCNLMS, ap_memory_explained; cbn; auto].
      rewrite map_const0 by (intros; simpl; ring). rewrite mv_length.
      simpl in Hx; destruct Hx as (H1 & H2).
      destruct (rls_R_shape (o_mu o) n R0 x H1 H2 Hl) as (-> & _).
      rewrite <- Hw0. apply vadd_zero_r; exact Hw.
    - exfalso; unfold is_OCNLMS in Hoc; rewrite E in Hoc; discriminate.
    - rewrite (adapt_Ang n o d x ro a le lx lf lm Hwf Hl E). cbn [fst set_w set_ext o_w].
      change (nsub d (ndot (o_w o) x)) with (d - Rdot (o_w o) x). rewrite He.
      split; [|unfold is_OCNLMS, ap_memory_explained; cbn; auto].
      rewrite <- Hw0. apply vadd_zero; [congruence|simpl; ring].
    - rewrite (adapt_Benveniste n o d x ro le lx lf lm Hwf Hl E). cbn [fst set_w set_ext o_w].
      change (nsub d (ndot (o_w o) x)) with (d - Rdot (o_w o) x). rewrite He.
      split; [|unfold is_OCNLMS, ap_memory_explained; cbn; auto].
      rewrite <- Hw0. apply vadd_zero; [congruence|simpl; ring].
    - rewrite (adapt_Mathews n o d x ro le lx lm Hwf Hl E). cbn [fst set_w set_ext o_w].
      change (nsub d (ndot (o_w o) x)) with (d - Rdot (o_w o) x). rewrite He.
      split; [|unfold is_OCNLMS, ap_memory_explained; cbn; auto].
      rewrite <- Hw0. apply vadd_zero; [congruence|simpl; ring].
    - rewrite (adapt_AP_step n o d x order xm dm ii id ym em Hwf Hl E) in *.
      simpl in Hx; destruct Hx as (Ho & Hlx & Hr & Hld).
      unfold ap_memory_explained in Hap; rewrite E in Hap.
      pose proof (explained_push order xm dm w0 x d Ho ltac:(congruence) Hr Hld Hap Hd) as Hex.
      destruct (nsolve _ _) as [G|]; [|discriminate HO]. cbn [fst set_w set_ext o_w].
      split; [|unfold is_OCNLMS, ap_memory_explained; cbn [o_ext set_w set_ext]; split; [reflexivity|exact Hex]].
      rewrite Hw0. change (@nsub R _) with Rminus.
      rewrite (explained_e order (push_x order xm x) (push_d order dm d) w0) by (auto using push_d_length).
      rewrite !mv_zero, vscale_R, vsc_repeat0. rewrite (push_x_length n) by auto.
      apply vadd_zero_r; congruence.
  Qed.

  Theorem C19_perfect_model_is_fixed_point : forall n (o o' : obj) d x y e w,
    reachable n o -> is_OCNLMS o = false -> regular o -> ap_memory_explained (o_w o) o ->
    rows_of n x -> noise_free (o_w o) d x ->
    run d x o = (o', Ok (y, e, w)) ->
    y = d /\ e = repeat 0 (length x) /\ w = repeat (o_w o) (length x) /\ o_w o' = o_w o.
  Proof.
    intros n o o' d x y e w Hr Hoc Hreg Hap Hx Hnf E. apply reachable_wf in Hr.
    destruct (run_frozen n (fun s => o_w s = o_w o /\ is_OCNLMS s = false /\ ap_memory_explained (o_w o) s)
      (fun d x => d = Rdot (o_w o) x) (o_w o)) with (o := o) (o' := o') (d := d) (x := x) (y := y) (e := e) (w := w)
      as (Hw & Hw' & Hld & Hly & Hle & Hk); auto.
    - intros s H; apply H.
    - intros s d0 x0; apply adapt_frozen_e.
    - assert (Hy : y = d).
      { apply nth_ext0; [congruence|]. intros k Hk'. rewrite Hly in Hk'.
        destruct (Hk k Hk') as (s & (Hs1 & Hs2 & _) & Hs3 & _ & -> & _).
        rewrite (pred_out_R n) by (auto; apply nth_rows; auto). rewrite Hs1. symmetry; apply Hnf; auto. }
      repeat split; auto.
      apply nth_ext0; [rewrite repeat_length; auto|]. intros k Hk'. rewrite Hle in Hk'. rewrite nth_repeat.
      destruct (Hk k Hk') as (s & _ & _ & _ & _ & ->). rewrite Hy; ring.
  Qed.

  (** a new AP filter satisfies the memory hypothesis, whatever its weights *)
  Lemma fresh_ap_explained order n ii id ym em (w0 : rvec) w mu h :
    ap_memory_explained w0 (mkObj w n mu h (XAP order (zeros2 n order) (zeros order) ii id ym em)).
  Proof.
    intros j Hj. unfold zeros. rewrite nth_repeat.
    assert (Hc : column j (zeros2 n order : list rvec) = repeat 0 n).
    { unfold column, zeros2, zeros. clear Hj. induction n as [|k IH]; [reflexivity|]. cbn [repeat map]. f_equal; [apply nth_repeat|exact IH]. }
    rewrite Hc, Rdot_zero_l. reflexivity.
  Qed.

  (** *** C20 *)
  (** the classes whose increments are proportional to mu *)
  Definition mu_proportional (o : obj) : bool :=
    match o_ext o with
    | XRLS _ _ | XAng _ _ _ _ _ _ | XBenveniste _ _ _ _ _ | XMathews _ _ _ _ => false
    | _ => true
    end.

  Lemma adapt_frozen_mu n w0 (o : obj) d x :
    o_w o = w0 /\ mu_proportional o = true /\ o_mu o = 0 -> wf n o -> length x = n ->
    snd (adapt d x o) = Ok tt ->
    o_w (fst (adapt d x o)) = w0 /\ mu_proportional (fst (adapt d x o)) = true /\ o_mu (fst (adapt d x o)) = 0.
  Proof.
    intros (Hw0 & Hp & Hmu) Hwf Hl HO. pose proof Hwf as (Hw & Hn & Hx). unfold mu_proportional in Hp.
    destruct (o_ext o) as [| | | | eps | eps | eps | la al | la | eps ro le lx | eps R0
        | eps mem em mx md idx | ro a le lx lf lm | ro le lx lf lm | ro le lx lm | order xm dm ii id ym em ] eqn:E;
      try discriminate Hp.
    1-9: match type of E with _ = ?c => destruct (textbook c (o_mu o) (d - Rdot (o_w o) x) x) as [dw|] eqn:Et;
           [|discriminate Et] end;
         rewrite (adapt_textbook solve o d x dw) by (rewrite ?E; auto; congruence);
         cbn [fst set_w o_w o_mu]; rewrite Hmu in Et; apply textbook_mu0 in Et; subst dw;
         (split; [rewrite vadd_zero_r by congruence; exact Hw0|]);
         unfold mu_proportional; cbn [set_w o_ext]; rewrite E; split; auto.
    - rewrite (adapt_GNGD n o d x eps ro le lx Hwf Hl E). cbn [fst set_w set_ext o_w].
      split; [|split; [reflexivity|exact Hmu]]. rewrite <- Hw0. apply vadd_zero; [congruence|].
      simpl. rewrite Hmu. unfold Rdiv; ring.
    - rewrite (adapt_OCNLMS n o d x eps mem em mx md idx Hwf Hl E). cbn [fst set_w set_ext o_w].
      split; [|split; [reflexivity|exact Hmu]]. rewrite <- Hw0. apply vadd_zero.
      + rewrite Hw; symmetry; apply map2_length_eq; auto. apply oc_read_length.
      + simpl. rewrite Hmu. unfold Rdiv; ring.
    - rewrite (adapt_AP_step n o d x order xm dm ii id ym em Hwf Hl E) in *.
      simpl in Hx; destruct Hx as (Ho & Hlx & Hr & Hld).
      destruct (nsolve _ _) as [G|]; [|discriminate HO]. cbn [fst set_w set_ext o_w].
      split; [|split; [reflexivity|exact Hmu]]. rewrite <- Hw0. apply vadd_zero; [|exact Hmu].
      rewrite mv_length. rewrite (push_x_length n) by auto. exact Hw.
  Qed.

  Theorem C20_zero_rate_freezes : forall n (o o' : obj) d x y e w,
    reachable n o -> mu_proportional o = true -> regular o -> o_mu o = 0 ->
    rows_of n x -> run d x o = (o', Ok (y, e, w)) ->
    w = repeat (o_w o) (length x) /\ o_w o' = o_w o /\
    (is_OCNLMS o = false -> forall k, (k < length x)%nat -> nth k y 0 = Rdot (o_w o) (nth k x [])).
  Proof.
    intros n o o' d x y e w Hr Hp Hreg Hmu Hx E. apply reachable_wf in Hr.
    destruct (run_frozen n (fun s => o_w s = o_w o /\ mu_proportional s = true /\ o_mu s = 0)
      (fun d x => True) (o_w o)) with (o := o) (o' := o') (d := d) (x := x) (y := y) (e := e) (w := w)
      as (Hw & Hw' & Hld & Hly & Hle & Hk); auto.
    - intros s H; apply H.
    - intros s d0 x0 H1 H2 H3 _; apply (adapt_frozen_mu n); auto.
    - repeat split; auto. intros Hoc k Hk'.
      destruct (Hk k Hk') as (s & (Hs1 & _) & Hs3 & (_ & _ & Hf) & -> & _).
      rewrite <- Hs1. apply (pred_out_R n); [auto|apply nth_rows; auto|].
      unfold is_OCNLMS in *; destruct (o_ext o), (o_ext s); auto; discriminate.
  Qed.

  (** RLS has no zero rate: the update divides by mu *)
  Theorem C20_RLS_zero_rate : forall n (o : obj) eps R0 d x,
    reachable n o -> o_ext o = XRLS eps R0 -> o_mu o = 0 -> length x = n ->
    adapt d x o = (o, Err ZeroDivisionError).
  Proof.
    intros n o eps R0 d x Hr E Hmu Hl. apply reachable_wf in Hr.
    apply (adapt_RLS_mu0 n o d x eps R0); auto.
    simpl; rewrite Hmu; unfold Reqb. destruct (Req_EM_T 0 0); [reflexivity|congruence].
  Qed.

  (** *** C22 *)
  Lemma run_same n (Rel : obj -> obj -> Prop) :
    (forall o1 o2, Rel o1 o2 -> wf n o1 /\ wf n o2 /\ o_w o2 = o_w o1 /\
       is_AP o1 = false /\ is_AP o2 = false /\ is_OCNLMS o1 = false /\ is_OCNLMS o2 = false) ->
    (forall o1 o2 d x, Rel o1 o2 -> length x = n ->
       snd (adapt d x o2) = snd (adapt d x o1) /\
       (snd (adapt d x o1) = Ok tt -> Rel (fst (adapt d x o1)) (fst (adapt d x o2)))) ->
    forall o1 o2 d x, Rel o1 o2 -> rowsl n x ->
    snd (run d x o1) = snd (run d x o2) /\
    (forall r, snd (run d x o1) = Ok r -> o_w (fst (run d x o1)) = o_w (fst (run d x o2))).
  Proof.
    intros Hw Hs o1 o2 d x HR Hx.
    destruct (Nat.eq_dec (length d) (length x)) as [Hl|Hl].
    2:{ rewrite !run_bad_length by assumption. split; [reflexivity|discriminate]. }
    destruct x as [|x0 x'] eqn:Ex; [destruct d; [|discriminate]; rewrite !run_empty; split; [reflexivity|discriminate]|].
    rewrite <- Ex in *. assert (Hne : x <> []) by congruence. clear Ex.
    destruct (run_rel n n Rel (fun _ _ => True) (fun a => a) (fun v => v) (fun v => v)) with
      (o1 := o1) (o2 := o2) (d := d) (x := x) as (H1 & H2); auto.
    - intros a b H; destruct (Hw a b H) as (A & B & C & _); auto.
    - intros a b d1 x1 H Hlx _. destruct (Hw a b H) as (A & B & C & D1 & D2 & D3 & D4).
      destruct (Hs a b d1 x1 H Hlx) as (S1 & S2). split; [auto|]. split; [|auto].
      rewrite !(pred_out_plain n) by auto. rewrite C; reflexivity.
    - rewrite !map_id in H1, H2.
      assert (Hid : rmap (fun '(y, e, w) => (map (fun a : R => a) y, map (fun a : R => a) e, map (fun v : rvec => v) w)) (snd (run d x o1)) = snd (run d x o1)).
      { destruct (snd (run d x o1)) as [[[y e] w]|]; simpl; [rewrite !map_id|]; reflexivity. }
      rewrite Hid in H1. split; [auto|].
      intros r Hr. destruct (Hw o1 o2 HR) as (W1 & W2 & _).
      rewrite (run_snd n o1 d x W1 Hx Hl Hne) in Hr.
      destruct (run_fst n o1 d x W1 Hx Hl Hne) as (h1 & ->). destruct (run_fst n o2 d x W2 Hx Hl Hne) as (h2 & ->).
      cbn [set_hist o_w]. destruct (snd (adapt_all d x o1)) as [[]|]; [|discriminate].
      destruct (Hw _ _ (H2 eq_refl)) as (_ & _ & -> & _). reflexivity.
  Qed.

  Lemma wf_set_w n (o : obj) w : wf n o -> length w = n -> wf n (set_w w o).
  Proof. intros (A & B & C) H; repeat split; auto. Qed.

  (** GNGD with ro = 0 is NLMS *)
  Theorem C22_GNGD_ro0_is_NLMS : forall n (o1 o2 : obj) eps le lx d x,
    reachable n o1 -> reachable n o2 -> o_ext o1 = XGNGD eps 0 le lx -> o_ext o2 = XNLMS eps -> 0 < eps ->
    o_w o1 = o_w o2 -> o_mu o1 = o_mu o2 -> rows_of n x ->
    snd (run d x o1) = snd (run d x o2) /\
    (forall r, snd (run d x o1) = Ok r -> o_w (fst (run d x o1)) = o_w (fst (run d x o2))).
  Proof.
    intros n o1 o2 eps le lx d x Hr1 Hr2 E1 E2 Heps Hw Hmu Hx. apply reachable_wf in Hr1, Hr2.
    apply (run_same n (fun a b => wf n a /\ wf n b /\ o_w b = o_w a /\ o_mu b = o_mu a /\
      (exists le lx, o_ext a = XGNGD eps 0 le lx) /\ o_ext b = XNLMS eps)); auto.
    - intros a b (W1 & W2 & A & B & (l1 & l2 & C) & D). unfold is_AP, is_OCNLMS; rewrite C, D; auto 10.
    - intros a b d0 x0 (W1 & W2 & A & B & (l1 & l2 & C) & D) Hl.
      rewrite (adapt_GNGD n a d0 x0 eps 0 l1 l2 W1 Hl C).
      rewrite (adapt_textbook solve b d0 x0 (vsc (o_mu b / (eps + normsq x0) * (d0 - Rdot (o_w b) x0)) x0)).
      2:{ rewrite Hl; symmetry; apply W2. } 2:{ rewrite D; reflexivity. }
      split; [reflexivity|]. intros _. cbn [fst].
      assert (Heq : gngd_eps (o_mu a) eps 0 l1 (nsub d0 (ndot (o_w a) x0)) l2 x0 = eps).
      { unfold gngd_eps; simpl. unfold Rdiv; ring. }
      rewrite Heq.
      split; [|split; [|split; [|split; [|split]]]].
      + destruct W1 as (A1 & A2 & A3). split; [|split]; cbn [set_w set_ext o_w o_n o_ext wf_ext]; auto.
        apply map2_length_eq; [auto|rewrite vscale_length; auto].
      + apply wf_set_w; auto. apply vadd_length; [apply W2|rewrite vsc_length; auto].
      + cbn [set_w set_ext o_w]. rewrite A, B. reflexivity.
      + exact B.
      + cbn [set_w set_ext o_ext]. eauto.
      + exact D.
    - repeat match goal with |- _ /\ _ => split end; eauto; congruence.
  Qed.

  (** the variable step-size filters with ro = 0 and the step size they start from *)
  Definition vslms_ro0 (o : obj) : Prop :=
    (exists le lx, o_ext o = XMathews 0 le lx (o_mu o)) \/
    (exists le lx lf, o_ext o = XBenveniste 0 le lx lf (o_mu o)) \/
    (exists a le lx lf, o_ext o = XAng 0 a le lx lf (o_mu o)).

  Theorem C22_VSLMS_ro0_is_LMS : forall n (o1 o2 : obj) d x,
    reachable n o1 -> reachable n o2 -> vslms_ro0 o1 -> o_ext o2 = XLMS ->
    o_w o1 = o_w o2 -> o_mu o1 = o_mu o2 -> rows_of n x ->
    snd (run d x o1) = snd (run d x o2) /\
    (forall r, snd (run d x o1) = Ok r -> o_w (fst (run d x o1)) = o_w (fst (run d x o2))).
  Proof.
    intros n o1 o2 d x Hr1 Hr2 E1 E2 Hw Hmu Hx. apply reachable_wf in Hr1, Hr2.
    apply (run_same n (fun a b => wf n a /\ wf n b /\ o_w b = o_w a /\ o_mu b = o_mu a /\
      vslms_ro0 a /\ o_ext b = XLMS)); auto.
    - intros a b (W1 & W2 & A & B & [(l1 & l2 & C)|[(l1 & l2 & l3 & C)|(l0 & l1 & l2 & l3 & C)]] & D);
        unfold is_AP, is_OCNLMS; rewrite C, D; auto 10.
    - intros a b d0 x0 (W1 & W2 & A & B & HV & D) Hl.
      rewrite (adapt_textbook solve b d0 x0 (vsc (o_mu b * (d0 - Rdot (o_w b) x0)) x0)).
      2:{ rewrite Hl; symmetry; apply W2. } 2:{ rewrite D; reflexivity. }
      assert (W2' : wf n (set_w (vadd (o_w b) (vsc (o_mu b * (d0 - Rdot (o_w b) x0)) x0)) b)).
      { apply wf_set_w; auto. apply vadd_length; [apply W2|rewrite vsc_length; auto]. }
      pose proof W1 as (A1 & A2 & A3).
      destruct HV as [(l1 & l2 & C)|[(l1 & l2 & l3 & C)|(l0 & l1 & l2 & l3 & C)]].
      + rewrite (adapt_Mathews n a d0 x0 0 l1 l2 (o_mu a) W1 Hl C).
        assert (Hm : forall u v z, nadd (o_mu a) (nmul (nmul (nmul 0 u) v) z) = o_mu a) by (intros; simpl; ring).
        rewrite Hm. split; [reflexivity|]. intros _; cbn [fst]. rewrite C in A3; simpl in A3.
        split; [|split; [exact W2'|split; [|split; [exact B|split; [|exact D]]]]].
        * split; [|split]; cbn [set_w set_ext o_w o_n o_ext wf_ext]; auto.
          apply map2_length_eq; [auto|rewrite vscale_length; auto].
        * cbn [set_w set_ext o_w]. rewrite A, B. reflexivity.
        * left; cbn [set_w set_ext o_ext o_mu]; eauto.
      + rewrite (adapt_Benveniste n a d0 x0 0 l1 l2 l3 (o_mu a) W1 Hl C).
        assert (Hm : forall u z, nadd (o_mu a) (nmul (nmul 0 u) z) = o_mu a) by (intros; simpl; ring).
        rewrite Hm. split; [reflexivity|]. intros _; cbn [fst]. rewrite C in A3; simpl in A3.
        split; [|split; [exact W2'|split; [|split; [exact B|split; [|exact D]]]]].
        * split; [|split]; cbn [set_w set_ext o_w o_n o_ext wf_ext]; auto.
          { apply map2_length_eq; [auto|rewrite vscale_length; auto]. }
          split; [auto|apply ben_fi_length; apply A3].
        * cbn [set_w set_ext o_w]. rewrite A, B. reflexivity.
        * right; left; cbn [set_w set_ext o_ext o_mu]; eauto.
      + rewrite (adapt_Ang n a d0 x0 0 l0 l1 l2 l3 (o_mu a) W1 Hl C).
        assert (Hm : forall u z, nadd (o_mu a) (nmul (nmul 0 u) z) = o_mu a) by (intros; simpl; ring).
        rewrite Hm. split; [reflexivity|]. intros _; cbn [fst]. rewrite C in A3; simpl in A3.
        split; [|split; [exact W2'|split; [|split; [exact B|split; [|exact D]]]]].
        * split; [|split]; cbn [set_w set_ext o_w o_n o_ext wf_ext]; auto.
          { apply map2_length_eq; [auto|rewrite vscale_length; auto]. }
          split; [auto|]. apply map2_length_eq; rewrite vscale_length; apply A3.
        * cbn [set_w set_ext o_w]. rewrite A, B. reflexivity.
        * right; right; cbn [set_w set_ext o_ext o_mu]; eauto.
    - repeat match goal with |- _ /\ _ => split end; auto; congruence.
  Qed.

  (** *** C27 *)
  (** Specification: multiplying everything that is measured in the units of the target *)
  Definition scale_ext (c : R) (x : ext R) : ext R :=
    match x with
    | XGNGD eps ro le lx => XGNGD eps ro (c * le) lx
    | XOCNLMS eps mem em mx md idx => XOCNLMS eps mem em mx (vsc c md) idx
    | XAng ro a le lx lf lm => XAng ro a (c * le) lx (vsc c lf) lm
    | XBenveniste ro le lx lf lm => XBenveniste ro (c * le) lx (vsc c lf) lm
    | XMathews ro le lx lm => XMathews ro (c * le) lx lm
    | XAP order xm dm ii id ym em => XAP order xm (vsc c dm) ii id (vsc c ym) (vsc c em)
    | x => x
    end.
  Definition scale_obj (c : R) (o : obj) : obj :=
    mkObj (vsc c (o_w o)) (o_n o) (o_mu o) (o_hist o) (scale_ext c (o_ext o)).

  (** classes whose update is linear in the error; the others only commute with a change of sign *)
  Definition linear_class (x : ext R) : bool :=
    match x with
    | XBase | XLMS | XNLMS _ | XRLS _ _ | XOCNLMS _ _ _ _ _ _ | XAP _ _ _ _ _ _ _ => true
    | _ => false
    end.
  Definition scalable (c : R) (x : ext R) : Prop := linear_class x = true \/ c = -1.

  Lemma vsc_vadd c u v : vsc c (vadd u v) = vadd (vsc c u) (vsc c v).
  Proof.
    revert v; induction u as [|a u IH]; intros [|b v]; simpl; auto.
    unfold vsc, vadd in *; simpl; rewrite IH. f_equal; ring.
  Qed.
  Lemma vsc_vsub c u v : vsc c (vsub u v) = vsub (vsc c u) (vsc c v).
  Proof.
    revert v; induction u as [|a u IH]; intros [|b v]; simpl; auto.
    unfold vsc, vsub in *; simpl; rewrite IH. f_equal; ring.
  Qed.
  Lemma vsc_vsc c b v : vsc c (vsc b v) = vsc (c * b) v.
  Proof. unfold vsc; rewrite map_map. apply map_ext; intros; ring. Qed.
  Lemma Rsum_vsc c v : Rsum (vsc c v) = c * Rsum v.
  Proof. induction v as [|a v IH]; simpl; [ring|]. unfold vsc in *; simpl; rewrite IH; ring. Qed.
  Lemma mean_vsc c v : mean (vsc c v) = c * mean v.
  Proof. unfold mean; simpl. rewrite Rsum_vsc, vsc_length. unfold Rdiv; ring. Qed.
  Lemma set_nth_vsc c k a v : set_nth k (c * a) (vsc c v) = vsc c (set_nth k a v).
  Proof. revert k; induction v as [|b v IH]; intros [|k]; simpl; auto. unfold vsc in *; simpl. rewrite IH; reflexivity. Qed.
  Lemma mv_vsc (A : list rvec) c v : mv A (vsc c v) = vsc c (mv A v).
  Proof. unfold mv, vsc. rewrite map_map. apply map_ext; intros r. apply Rdot_vsc_r. Qed.
  Lemma vsc_map c f (v : rvec) : vsc c (map f v) = map (fun a => c * f a) v.
  Proof. unfold vsc; apply map_map. Qed.

  Lemma Rsgn_neg e : Rsgn (-1 * e) = -1 * Rsgn e.
  Proof. unfold Rsgn. repeat match goal with |- context [Rlt_dec ?a ?b] => destruct (Rlt_dec a b) end; lra. Qed.

  Lemma textbook_scale c0 mu c e x dw : scalable c c0 -> textbook c0 mu e x = Some dw ->
    textbook c0 mu (c * e) x = Some (vsc c dw).
  Proof.
    intros [Hs| ->]; destruct c0; simpl in *; try discriminate; intros H; injection H as <-; f_equal;
      try (symmetry; apply vsc_repeat0);
      try (rewrite vsc_vsc; f_equal; ring).
    - rewrite vsc_map. apply map_ext; intros a. rewrite Rsgn_neg; ring.
    - rewrite vsc_map. apply map_ext; intros a. rewrite Rsgn_neg; ring.
    - rewrite vsc_vsc. f_equal. rewrite Rsgn_neg. replace (-1 * e) with (- e) by ring. rewrite Rabs_Ropp. ring.
    - rewrite vsc_vsc. f_equal. replace (lambd * (-1 * e)) with (- (lambd * e)) by ring. rewrite tanh_opp. ring.
  Qed.

  Lemma oc_read_scale n c em mx md idx :
    oc_read n em mx (vsc c md) idx = (c * fst (oc_read n em mx md idx), snd (oc_read n em mx md idx)).
  Proof.
    unfold oc_read. destruct em; [destruct (Nat.eqb idx 0)|]; cbn [fst snd].
    - f_equal; simpl; ring.
    - f_equal. rewrite <- mean_vsc. unfold vsc. rewrite firstn_map. reflexivity.
    - f_equal. rewrite <- mean_vsc. f_equal. unfold delete, vsc. rewrite firstn_map, skipn_map, map_app. reflexivity.
  Qed.

  Lemma oc_y_scale n c w em mx md idx x :
    oc_y n (vsc c w) em mx (vsc c md) idx x = c * oc_y n w em mx md idx x.
  Proof. unfold oc_y. rewrite oc_read_scale. simpl. rewrite Rdot_vsc_l. ring. Qed.

  Lemma scale_wf n c (o : obj) : wf n o -> wf n (scale_obj c o).
  Proof.
    intros (A & B & C). split; [|split]; cbn [scale_obj o_w o_n o_ext]; auto.
    - rewrite vsc_length; auto.
    - destruct (o_ext o); cbn [scale_ext wf_ext] in *; rewrite ?vsc_length; auto.
  Qed.

  Lemma pred_out_scale n c (o : obj) x : wf n o -> length x = n -> pred_out (scale_obj c o) x = c * pred_out o x.
  Proof.
    intros Hwf Hl. pose proof (scale_wf n c o Hwf) as Hwf'.
    destruct (is_OCNLMS o) eqn:Hoc.
    - unfold is_OCNLMS in Hoc. destruct (o_ext o) eqn:E; try discriminate.
      erewrite (pred_out_OCNLMS n o) by eauto.
      erewrite (pred_out_OCNLMS n (scale_obj c o)); [|exact Hwf'|exact Hl|cbn [scale_obj o_ext]; rewrite E; reflexivity].
      apply oc_y_scale.
    - rewrite !(pred_out_R n); auto.
      + cbn [scale_obj o_w]. apply Rdot_vsc_l.
      + unfold is_OCNLMS in *; cbn [scale_obj o_ext]. destruct (o_ext o); auto.
  Qed.

  Lemma set_scale (o o1 : obj) w c : o_n o1 = o_n o ->
    o_mu o1 = o_mu o -> o_hist o1 = o_hist o ->
    set_w (vsc c w) (set_ext (scale_ext c (o_ext o1)) (scale_obj c o)) = scale_obj c (set_w w o1).
  Proof. intros A B C. unfold set_w, set_ext, scale_obj; cbn. rewrite A, B, C. reflexivity. Qed.

  Lemma adapt_scale n c (o : obj) d x : wf n o -> length x = n -> scalable c (o_ext o) ->
    adapt (c * d) x (scale_obj c o) = (scale_obj c (fst (adapt d x o)), snd (adapt d x o)).
  Proof.
    intros Hwf Hl Hs. pose proof (scale_wf n c o Hwf) as Hwf'. pose proof Hwf as (Hw & Hn & Hx).
    assert (He : c * d - Rdot (o_w (scale_obj c o)) x = c * (d - Rdot (o_w o) x)).
    { cbn [scale_obj o_w]. rewrite Rdot_vsc_l; ring. }
    destruct (o_ext o) as [| | | | eps | eps | eps | la al | la | eps ro le lx | eps R0
        | eps mem em mx md idx | ro a le lx lf lm | ro le lx lf lm | ro le lx lm | order xm dm ii id ym em ] eqn:E.
    1-9: match type of E with _ = ?c0 => destruct (textbook c0 (o_mu o) (d - Rdot (o_w o) x) x) as [dw|] eqn:Et;
           [|discriminate Et] end;
         rewrite (adapt_textbook solve o d x dw) by (rewrite ?E; auto; congruence);
         rewrite (adapt_textbook solve (scale_obj c o) (c * d) x (vsc c dw));
         [ unfold scale_obj, set_w; cbn [fst snd o_w o_n o_mu o_hist o_ext]; rewrite vsc_vadd; reflexivity
         | cbn [scale_obj o_w]; rewrite vsc_length; congruence
         | rewrite He; cbn [scale_obj o_ext o_mu]; rewrite E; apply textbook_scale; auto ].
    - destruct Hs as [Hs| ->]; [discriminate|].
      rewrite (adapt_GNGD n o d x eps ro le lx Hwf Hl E).
      rewrite (adapt_GNGD n (scale_obj (-1) o) (-1 * d) x eps ro (-1 * le) lx Hwf' Hl)
        by (cbn [scale_obj o_ext]; rewrite E; reflexivity).
      change (nsub (-1 * d) (ndot (o_w (scale_obj (-1) o)) x)) with (-1 * d - Rdot (o_w (scale_obj (-1) o)) x).
      rewrite He. change (nsub d (ndot (o_w o) x)) with (d - Rdot (o_w o) x). set (e := d - Rdot (o_w o) x).
      change (o_mu (scale_obj (-1) o)) with (o_mu o).
      assert (Hg : gngd_eps (o_mu o) eps ro (-1 * le) (-1 * e) lx x = gngd_eps (o_mu o) eps ro le e lx x).
      { unfold gngd_eps; simpl. f_equal. f_equal. ring. }
      rewrite Hg. set (eps' := gngd_eps (o_mu o) eps ro le e lx x).
      unfold scale_obj, set_w, set_ext; cbn [fst snd o_w o_n o_mu o_hist o_ext scale_ext]. f_equal. f_equal.
      change (@nadd R _) with Rplus. change (map2 Rplus) with vadd. change (@vscale R _) with vsc. rewrite vsc_vadd, vsc_vsc. f_equal. f_equal.
      simpl; ring.
    - destruct (neqb (o_mu o) n0) eqn:Hmu.
      { rewrite (adapt_RLS_mu0 n o d x eps R0 Hwf Hl E Hmu).
        rewrite (adapt_RLS_mu0 n (scale_obj c o) (c * d) x eps R0 Hwf' Hl) by (cbn [scale_obj o_ext o_mu]; rewrite ?E; auto).
        reflexivity. }
      rewrite (adapt_RLS n o d x eps R0 Hwf Hl E Hmu).
      rewrite (adapt_RLS n (scale_obj c o) (c * d) x eps R0 Hwf' Hl) by (cbn [scale_obj o_ext o_mu]; rewrite ?E; auto).
      change (nsub (c * d) (ndot (o_w (scale_obj c o)) x)) with (c * d - Rdot (o_w (scale_obj c o)) x).
      rewrite He. change (nsub d (ndot (o_w o) x)) with (d - Rdot (o_w o) x). set (e := d - Rdot (o_w o) x).
      change (o_mu (scale_obj c o)) with (o_mu o).
      unfold scale_obj, set_w, set_ext; cbn [fst snd o_w o_n o_mu o_hist o_ext scale_ext]. f_equal. f_equal.
      change (@nadd R _) with Rplus. change (map2 Rplus) with vadd. rewrite vsc_vadd. f_equal.
      rewrite vsc_map. apply map_ext; intros; simpl; ring.
    - rewrite (adapt_OCNLMS n o d x eps mem em mx md idx Hwf Hl E).
      rewrite (adapt_OCNLMS n (scale_obj c o) (c * d) x eps mem em mx (vsc c md) idx Hwf' Hl)
        by (cbn [scale_obj o_ext]; rewrite E; reflexivity).
      unfold scale_obj, set_w, set_ext; cbn [fst snd o_w o_n o_mu o_hist o_ext scale_ext].
      rewrite !oc_y_scale, !oc_read_scale. cbn [snd].
      set (y := oc_y n (o_w o) em mx md idx x).
      set (y1 := oc_y n (o_w o) (oc_em mem em idx) (set_nth (oc_idx mem idx) x mx) md (oc_idx mem idx) x).
      set (m_x := snd (oc_read n (oc_em mem em idx) (set_nth (oc_idx mem idx) x mx) md (oc_idx mem idx))).
      change (@nadd R _) with Rplus. change (@nsub R _) with Rminus. change (@nmul R _) with Rmult.
      change (map2 Rplus) with vadd. change (map2 Rminus x m_x) with (vsub x m_x).
      replace (c * d - c * y + c * y1) with (c * (d - y + y1)) by ring.
      replace (c * d - c * y) with (c * (d - y)) by ring.
      rewrite set_nth_vsc. change (@vscale R _) with vsc. rewrite vsc_vadd, vsc_vsc.
      match goal with |- context [vsc (?a * (c * ?b))] => replace (a * (c * b)) with (c * (a * b)) by ring end.
      reflexivity.
    - destruct Hs as [Hs| ->]; [discriminate|].
      rewrite (adapt_Ang n o d x ro a le lx lf lm Hwf Hl E).
      rewrite (adapt_Ang n (scale_obj (-1) o) (-1 * d) x ro a (-1 * le) lx (vsc (-1) lf) lm Hwf' Hl)
        by (cbn [scale_obj o_ext]; rewrite E; reflexivity).
      change (nsub (-1 * d) (ndot (o_w (scale_obj (-1) o)) x)) with (-1 * d - Rdot (o_w (scale_obj (-1) o)) x).
      rewrite He. change (nsub d (ndot (o_w o) x)) with (d - Rdot (o_w o) x). set (e := d - Rdot (o_w o) x).
      change (@nadd R _) with Rplus. change (@nmul R _) with Rmult. change (@ndot R _) with Rdot.
      change (map2 Rplus) with vadd. change (@vscale R _) with vsc.
      assert (Hfi : vadd (vsc a (vsc (-1) lf)) (vsc (-1 * le) lx) = vsc (-1) (vadd (vsc a lf) (vsc le lx))).
      { rewrite vsc_vadd, !vsc_vsc. f_equal; f_equal; ring. }
      rewrite Hfi. set (fi := vadd (vsc a lf) (vsc le lx)). rewrite Rdot_vsc_r.
      replace (lm + ro * (-1 * e) * (-1 * Rdot lx fi)) with (lm + ro * e * Rdot lx fi) by ring.
      unfold scale_obj, set_w, set_ext; cbn [fst snd o_w o_n o_mu o_hist o_ext scale_ext].
      rewrite vsc_vadd, vsc_vsc.
      match goal with |- context [vsc (?a * (-1 * e))] => replace (a * (-1 * e)) with (-1 * (a * e)) by ring end.
      reflexivity.
    - destruct Hs as [Hs| ->]; [discriminate|].
      rewrite (adapt_Benveniste n o d x ro le lx lf lm Hwf Hl E).
      rewrite (adapt_Benveniste n (scale_obj (-1) o) (-1 * d) x ro (-1 * le) lx (vsc (-1) lf) lm Hwf' Hl)
        by (cbn [scale_obj o_ext]; rewrite E; reflexivity).
      change (nsub (-1 * d) (ndot (o_w (scale_obj (-1) o)) x)) with (-1 * d - Rdot (o_w (scale_obj (-1) o)) x).
      rewrite He. change (nsub d (ndot (o_w o) x)) with (d - Rdot (o_w o) x). set (e := d - Rdot (o_w o) x).
      assert (Hfi : ben_fi n lm (-1 * le) lx (vsc (-1) lf) = vsc (-1) (ben_fi n lm le lx lf)).
      { unfold ben_fi. change (@nadd R _) with Rplus. change (map2 Rplus) with vadd.
        change (@vscale R _) with vsc. rewrite vsc_vadd, mv_vsc, vsc_vsc. reflexivity. }
      rewrite Hfi. set (fi := ben_fi n lm le lx lf).
      change (@nadd R _) with Rplus. change (@nmul R _) with Rmult. change (@ndot R _) with Rdot.
      change (map2 Rplus) with vadd. change (@vscale R _) with vsc. rewrite Rdot_vsc_r.
      replace (lm + ro * (-1 * e) * (-1 * Rdot lx fi)) with (lm + ro * e * Rdot lx fi) by ring.
      unfold scale_obj, set_w, set_ext; cbn [fst snd o_w o_n o_mu o_hist o_ext scale_ext].
      rewrite vsc_vadd, vsc_vsc.
      match goal with |- context [vsc (?a * (-1 * e))] => replace (a * (-1 * e)) with (-1 * (a * e)) by ring end.
      reflexivity.
    - destruct Hs as [Hs| ->]; [discriminate|].
      rewrite (adapt_Mathews n o d x ro le lx lm Hwf Hl E).
      rewrite (adapt_Mathews n (scale_obj (-1) o) (-1 * d) x ro (-1 * le) lx lm Hwf' Hl)
        by (cbn [scale_obj o_ext]; rewrite E; reflexivity).
      change (nsub (-1 * d) (ndot (o_w (scale_obj (-1) o)) x)) with (-1 * d - Rdot (o_w (scale_obj (-1) o)) x).
      rewrite He. change (nsub d (ndot (o_w o) x)) with (d - Rdot (o_w o) x). set (e := d - Rdot (o_w o) x).
      change (@nadd R _) with Rplus. change (@nmul R _) with Rmult. change (@ndot R _) with Rdot.
      change (map2 Rplus) with vadd. change (@vscale R _) with vsc.
      replace (lm + ro * (-1 * e) * (-1 * le) * Rdot lx x) with (lm + ro * e * le * Rdot lx x) by ring.
      unfold scale_obj, set_w, set_ext; cbn [fst snd o_w o_n o_mu o_hist o_ext scale_ext].
      rewrite vsc_vadd, vsc_vsc.
      match goal with |- context [vsc (?a * (-1 * e))] => replace (a * (-1 * e)) with (-1 * (a * e)) by ring end.
      reflexivity.
    - rewrite (adapt_AP_step n o d x order xm dm ii id ym em Hwf Hl E).
      rewrite (adapt_AP_step n (scale_obj c o) (c * d) x order xm (vsc c dm) ii id (vsc c ym) (vsc c em) Hwf' Hl)
        by (cbn [scale_obj o_ext]; rewrite E; reflexivity).
      assert (Hd : push_d order (vsc c dm) (c * d) = vsc c (push_d order dm d)).
      { unfold push_d, vsc; simpl. f_equal. apply firstn_map. }
      rewrite Hd. cbn [scale_obj o_w o_mu]. rewrite mv_vsc.
      change (@nsub R _) with Rminus. change (map2 Rminus) with vsub. rewrite <- vsc_vsub.
      destruct (nsolve _ _) as [G|]; cbn [fst snd]; [|reflexivity].
      rewrite !mv_vsc. change (@nadd R _) with Rplus. change (map2 Rplus) with vadd.
      change (@vscale R _) with vsc. rewrite vsc_vsc.
      unfold scale_obj, set_w, set_ext; cbn [o_w o_n o_mu o_hist o_ext scale_ext].
      rewrite vsc_vadd, vsc_vsc. rewrite (Rmult_comm c (o_mu o)). reflexivity.
  Qed.

  Lemma scalable_kind c a b : kind_eq a b = true -> scalable c a -> scalable c b.
  Proof. unfold scalable; destruct a, b; simpl; intros H; try discriminate H; auto. Qed.

  Lemma run_scale n c (o : obj) d x : wf n o -> scalable c (o_ext o) -> rowsl n x ->
    snd (run (vsc c d) x (scale_obj c o)) =
      rmap (fun '(y, e, w) => (vsc c y, vsc c e, map (vsc c) w)) (snd (run d x o)).
  Proof.
    intros Hwf Hs Hx. unfold vsc at 1.
    destruct (Nat.eq_dec (length d) (length x)) as [Hl|Hl].
    2:{ rewrite !run_bad_length by (rewrite ?map_length; assumption). reflexivity. }
    destruct x as [|x0 x'] eqn:Ex; [destruct d; [|discriminate]; reflexivity|].
    rewrite <- Ex in *. assert (Hne : x <> []) by congruence. clear Ex.
    destruct (run_rel n n (fun a b => wf n a /\ scalable c (o_ext a) /\ b = scale_obj c a) (fun _ _ => True)
      (Rmult c) (fun v => v) (vsc c)) with (o1 := o) (o2 := scale_obj c o) (d := d) (x := x) as (H1 & _); auto.
    - intros a b (A & B & ->); repeat split; try apply A; try apply scale_wf; auto.
    - intros a b d0 xk (A & B & ->) Hl0 _. split; [auto|]. split; [apply (pred_out_scale n); auto|].
      pose proof (adapt_scale n c a d0 xk A Hl0 B) as Ha. rewrite Ha; cbn [fst snd]. split; [reflexivity|].
      intros _. destruct (adapt_ok n a d0 xk A Hl0) as (a' & r & Ea & Hwa & _ & (_ & _ & Hk) & _).
      rewrite Ea; cbn [fst]. repeat split; try apply Hwa. eapply scalable_kind; eauto.
    - intros; simpl; ring.
    - rewrite map_id in H1. exact H1.
  Qed.

  (** Initial weights v against -v, targets d against -d: every returned number changes its sign, for every
      class and keyword arguments (w excepted). *)
  Definition with_weights (kw : kwargs R) (v : rvec) : kwargs R :=
    mkKw (kw_n kw) (kw_mu kw) (Some (WVec v)) (kw_eps kw) (kw_ro kw) (kw_a kw) (kw_lambd kw) (kw_alpha kw)
         (kw_order kw) (kw_ifc kw) (kw_mem kw) (kw_other kw).

  Lemma init_ext_scale k (kw : kwargs R) n mu x c : init_ext k kw n mu = Ok x -> scale_ext c x = x.
  Proof.
    assert (Hz : forall k, vsc c (zeros k) = zeros k) by (intros; apply vsc_repeat0).
    assert (H0 : c * n0 = n0) by (simpl; ring).
    assert (Hnil : vsc c [] = []) by reflexivity.
    destruct k; unfold init_ext; intros H; try (injection H as <-); cbn [scale_ext];
      rewrite ?Hz, ?H0, ?Rmult_0_r, ?Hnil; auto.
    cbv zeta in H. match type of H with (if ?b then _ else _) = _ => destruct b end; [discriminate|].
    injection H as <-; reflexivity.
  Qed.

  Lemma new_filter_scale rng k (kw : kwargs R) v c o :
    new_filter rng k (with_weights kw v) = Ok o ->
    new_filter rng k (with_weights kw (vsc c v)) = Ok (scale_obj c o).
  Proof.
    unfold new_filter. cbn [with_weights kw_other kw_n kw_mu kw_w].
    destruct (kw_other kw); [discriminate|].
    replace (existsb (fun p => kw_given (with_weights kw (vsc c v)) p && negb (accepts k p)) all_params)
      with (existsb (fun p => kw_given (with_weights kw v) p && negb (accepts k p)) all_params) by reflexivity.
    destruct (existsb _ _); [discriminate|].
    destruct (kw_n kw) as [n|]; [|discriminate].
    match goal with |- match ?m with _ => _ end = _ -> _ => destruct m as [mu|]; [|discriminate] end.
    cbn [opt]. unfold init_base. destruct (n =? -1)%Z; [discriminate|].
    unfold init_weights. rewrite vsc_length. destruct (Z.of_nat (length v) =? n)%Z; [|discriminate].
    cbn [rmap rbind].
    replace (init_ext k (with_weights kw (vsc c v)) (Z.to_nat n) mu)
      with (init_ext k (with_weights kw v) (Z.to_nat n) mu) by (destruct k; reflexivity).
    destruct (init_ext k (with_weights kw v) (Z.to_nat n) mu) as [x|] eqn:Ex; [|discriminate].
    cbn [rmap]. intros H; injection H as <-. unfold scale_obj, set_ext; cbn [o_w o_n o_mu o_hist o_ext].
    erewrite init_ext_scale by exact Ex. reflexivity.
  Qed.

  Theorem C27_sign_symmetry : forall rng k (kw : kwargs R) n v (o1 o2 : obj) d x,
    rng_ok rng -> sane_kw kw -> kw_n kw = Some (Z.of_nat n) ->
    new_filter rng k (with_weights kw v) = Ok o1 ->
    new_filter rng k (with_weights kw (vneg v)) = Ok o2 ->
    rows_of n x ->
    snd (run (vneg d) x o2) = rmap (fun '(y, e, w) => (vneg y, vneg e, map vneg w)) (snd (run d x o1)).
  Proof.
    intros rng k kw n v o1 o2 d x Hrng Hsane Hn H1 H2 Hx.
    assert (Hneg : forall u, vneg u = vsc (-1) u) by (intros; apply map_ext; intros; ring).
    rewrite Hneg in H2. rewrite (new_filter_scale rng k kw v (-1) o1 H1) in H2. injection H2 as <-.
    rewrite Hneg. rewrite (run_scale n).
    - destruct (snd (run d x o1)) as [[[y e] w]|]; [|reflexivity]. simpl. rewrite !Hneg.
      do 2 f_equal. apply map_ext; intros; rewrite Hneg; reflexivity.
    - eapply new_filter_wf; [exact Hrng| | |exact H1]; auto.
    - right; reflexivity.
    - exact Hx.
  Qed.

  (** change of units of the target for the linear classes LMS, NLMS, RLS, AP, OCNLMS *)
  Theorem C27_homogeneous : forall rng k (kw : kwargs R) n v c (o1 o2 : obj) d x,
    In k [KLMS; KNLMS; KRLS; KAP; KOCNLMS] ->
    rng_ok rng -> sane_kw kw -> kw_n kw = Some (Z.of_nat n) ->
    new_filter rng k (with_weights kw v) = Ok o1 ->
    new_filter rng k (with_weights kw (vsc c v)) = Ok o2 ->
    rows_of n x ->
    snd (run (vsc c d) x o2) = rmap (fun '(y, e, w) => (vsc c y, vsc c e, map (vsc c) w)) (snd (run d x o1)).
  Proof.
    intros rng k kw n v c o1 o2 d x Hk Hrng Hsane Hn H1 H2 Hx.
    rewrite (new_filter_scale rng k kw v c o1 H1) in H2. injection H2 as <-.
    apply (run_scale n); auto.
    - eapply new_filter_wf; [exact Hrng| | |exact H1]; auto.
    - left. revert H1. unfold new_filter. cbn [with_weights kw_other kw_n kw_mu kw_w].
      destruct (kw_other kw); [discriminate|]. destruct (existsb _ _); [discriminate|].
      destruct (kw_n kw) as [m|]; [|discriminate].
      match goal with |- match ?m with _ => _ end = _ -> _ => destruct m as [mu|]; [|discriminate] end.
      destruct (init_base _ _ _ _ _) as [ob|]; [|discriminate]. cbn [rbind].
      destruct (init_ext k _ _ mu) as [xx|] eqn:Ex; [|discriminate]. cbn [rmap]. intros H; injection H as <-.
      cbn [set_ext o_ext]. destruct Hk as [<-|[<-|[<-|[<-|[<-|[]]]]]]; simpl in Ex; try (injection Ex as <-; reflexivity).
      destruct (Reqb _ _) in Ex; [discriminate|injection Ex as <-; reflexivity].
  Qed.

  (** *** The hypotheses can be met *)
  Definition kwE (mu : R) (w : rvec) (eps ro : option R) (order : option nat) : kwargs R :=
    mkKw (Some 2%Z) (Some mu) (Some (WVec w)) eps ro None None None order None None false.

  Lemma kwE_reachable k mu w eps ro order o : (forall m, order = Some m -> (1 <= m)%nat) ->
    new_filter rngR k (kwE mu w eps ro order) = Ok o -> reachable 2 o.
  Proof.
    intros Ho H. apply (reach_new 2 rngR k (kwE mu w eps ro order)); auto using rngR_ok.
    split; [intros ? Hs; discriminate Hs|exact Ho].
  Qed.

  Lemma kwE_reachable0 k mu w eps ro o : new_filter rngR k (kwE mu w eps ro None) = Ok o -> reachable 2 o.
  Proof. apply kwE_reachable; discriminate. Qed.

  Lemma Reqb_1_0 : Reqb 1 0 = false.
  Proof. unfold Reqb; destruct (Req_EM_T 1 0); [lra|reflexivity]. Qed.

  Definition rlsE : obj := mkObj ws0 2 1 None (XRLS 1 (mscale (ndiv n1 1) (identity 2))).
  Lemma rlsE_new : new_filter rngR KRLS (kwE 1 ws0 (Some 1) None None) = Ok rlsE.
  Proof. unfold new_filter, kwE. cbn. rewrite Reqb_1_0. reflexivity. Qed.

  (** RLS started at the true weights [3; 4] *)
  Example C19_hypotheses : exists o o' d x y e w,
    reachable 2 o /\ is_OCNLMS o = false /\ regular o /\ ap_memory_explained (o_w o) o /\ o_w o = ws0 /\
    rows_of 2 x /\ noise_free (o_w o) d x /\ run d x o = (o', Ok (y, e, w)).
  Proof.
    pose proof (kwE_reachable KRLS 1 ws0 (Some 1) None None rlsE ltac:(discriminate) rlsE_new) as Hr.
    destruct (run_exists solve 2 rlsE ds0 xs0 Hr xs0_rows eq_refl) as (o' & y & e & w & E).
    - discriminate.
    - intros ex (_ & He). cbn in He. rewrite Reqb_1_0 in He. discriminate.
    - exists rlsE, o', ds0, xs0, y, e, w. repeat split; auto using xs0_rows, xs0_noise_free; cbn; lra.
  Qed.

  (** a new AP filter of order 2: its empty memory is explained by any weights *)
  Example C19_AP_memory : exists o, new_filter rngR KAP (kwE 1 ws0 None None (Some 2%nat)) = Ok o /\
    reachable 2 o /\ is_AP o = true /\ ap_memory_explained (o_w o) o.
  Proof.
    destruct (new_filter rngR KAP (kwE 1 ws0 None None (Some 2%nat))) as [o|] eqn:E; [|discriminate E].
    exists o. split; [reflexivity|].
    split; [apply (kwE_reachable KAP 1 ws0 None None (Some 2%nat)); [intros m [= <-]; lia|exact E]|].
    injection E as <-. split; [reflexivity|]. apply fresh_ap_explained.
  Qed.

  Example C20_hypotheses : exists o o' d x y e w,
    reachable 2 o /\ mu_proportional o = true /\ regular o /\ o_mu o = 0 /\ rows_of 2 x /\
    run d x o = (o', Ok (y, e, w)) /\ nth 0 e 0 = 3.
  Proof.
    destruct (witness solve KNLMS 0 (Some 1) None None (XNLMS 1) eq_refl) as (o' & y & e & w & Hr & E & H0); [discriminate|].
    exists (fresh2 0 (XNLMS 1)), o', ds0, xs0, y, e, w.
    repeat split; auto using xs0_rows; cbn; lra.
  Qed.

  Example C22_hypotheses :
    (exists o1 o2, reachable 2 o1 /\ reachable 2 o2 /\ o_ext o1 = XGNGD 1 0 0 [0; 0] /\ o_ext o2 = XNLMS 1 /\
       o_w o1 = o_w o2 /\ o_mu o1 = o_mu o2 /\ o_mu o1 = 1 / 2) /\
    (forall k, In k [KMathews; KBenveniste; KAng] -> exists o1 o2, reachable 2 o1 /\ reachable 2 o2 /\
       new_filter rngR k (kwE (1 / 2) ws0 None (Some 0) None) = Ok o1 /\ vslms_ro0 o1 /\ o_ext o2 = XLMS /\
       o_w o1 = o_w o2 /\ o_mu o1 = o_mu o2).
  Proof.
    split.
    - destruct (new_filter rngR KGNGD (kwE (1 / 2) ws0 (Some 1) (Some 0) None)) as [o1|] eqn:E1; [|discriminate E1].
      destruct (new_filter rngR KNLMS (kwE (1 / 2) ws0 (Some 1) None None)) as [o2|] eqn:E2; [|discriminate E2].
      pose proof (kwE_reachable0 KGNGD _ _ _ _ o1 E1) as R1.
      pose proof (kwE_reachable0 KNLMS _ _ _ _ o2 E2) as R2.
      exists o1, o2. split; [exact R1|]. split; [exact R2|].
      injection E1 as <-. injection E2 as <-. repeat split; reflexivity.
    - intros k Hk.
      destruct (new_filter rngR KLMS (kwE (1 / 2) ws0 None None None)) as [o2|] eqn:E2; [|discriminate E2].
      pose proof (kwE_reachable0 KLMS _ _ _ _ o2 E2) as R2.
      destruct (new_filter rngR k (kwE (1 / 2) ws0 None (Some 0) None)) as [o1|] eqn:E1;
        [|destruct Hk as [<-|[<-|[<-|[]]]]; discriminate E1].
      pose proof (kwE_reachable0 k _ _ _ _ o1 E1) as R1.
      injection E2 as <-. exists o1. eexists. split; [exact R1|]. split; [exact R2|]. split; [reflexivity|].
      destruct Hk as [<-|[<-|[<-|[]]]]; injection E1 as <-; (split; [unfold vslms_ro0; cbn [o_ext o_mu]|repeat split; reflexivity]).
      + left; do 2 eexists; reflexivity.
      + right; left; do 3 eexists; reflexivity.
      + right; right; do 4 eexists; reflexivity.
  Qed.

  Example C27_hypotheses : forall k, k <> KOCNLMS -> exists (kw : kwargs R) o1 o2, sane_kw kw /\ kw_n kw = Some 2%Z /\
    new_filter rngR k (with_weights kw [3; 4]) = Ok o1 /\ new_filter rngR k (with_weights kw (vneg [3; 4])) = Ok o2 /\
    o_w o1 = [3; 4] /\ o_w o2 = [-3; -4].
  Proof.
    intros k Hk. exists (kwE 1 ws0 (match k with KRLS => Some 1 | _ => None end) None None).
    destruct k; try congruence;
      (do 2 eexists; split; [split; intros ? Hs; discriminate Hs|]; split; [reflexivity|];
       split; [unfold new_filter; cbn; rewrite ?Reqb_1_0; reflexivity|];
       split; [unfold new_filter; cbn; rewrite ?Reqb_1_0; reflexivity|];
       split; [reflexivity|];
       apply (f_equal2 cons); [cbn; lra|apply (f_equal2 cons); [cbn; lra|reflexivity]]).
  Qed.
End Props.

(** C20 for the variable step-size filters: a rate of zero does not freeze them (VSLMS_Mathews with ro = 0.1) *)
Theorem C20_zero_rate_VSLMS_refuted :
  exists (o : obj Q) d x, reachable 1 o /\ rows_of 1 x /\ o_mu o = 0%Q /\ o_w (fst (run d x o)) <> o_w o.
Proof.
  exists (get_ok obj0 (mk KMathews 0 [0]%Q None None)), [1; 1; 1]%Q, [[1]; [1]; [1]]%Q.
  split.
  { apply (mk_reachable KMathews 0 [0]%Q None None); try discriminate. vm_compute; reflexivity. }
  split; [repeat constructor|]. split; [reflexivity|]. vm_compute; discriminate.
Qed.
