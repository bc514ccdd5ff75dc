(** The filters over exact reals: textbook update rules, trajectories of run. *)
From Coq Require Import Reals Lra Psatz.
From Verif Require Import Py Num Numpy Filters Registry Spec StructProofs RunProofs Reach RVec.
Open Scope R_scope.

(** ** Specification: the textbook increment for error e, input x, of the memoryless classes *)
Definition textbook (c : ext R) (mu e : R) (x : rvec) : option rvec :=
  match c with
  | XBase => Some (repeat 0 (length x))
  | XLMS => Some (vsc (mu * e) x)
  | XLMF => Some (vsc (mu * e ^ 3) x)
  | XSSLMS => Some (map (fun a => mu * Rsgn a * Rsgn e) x)
  | XNLMS eps => Some (vsc (mu / (eps + normsq x) * e) x)
  | XNLMF eps => Some (vsc (mu / (eps + normsq x) * e ^ 3) x)
  | XNSSLMS eps => Some (map (fun a => mu / (eps + normsq x) * Rsgn a * Rsgn e) x)
  | XGMCC la al =>
      Some (vsc (mu * la * al * exp (- la * Rpowf (Rabs e) al) * Rpowf (Rabs e) (al - 1) * Rsgn e) x)
  | XLlncosh la => Some (vsc (mu * tanh (la * e)) x)
  | _ => None
  end.

(** the k-th weight vector of a run: the returned history followed by the final weights *)
Definition wrow (w : list rvec) (wfinal : rvec) (k : nat) : rvec := nth k (w ++ [wfinal]) [].

Section RF.
  Variable solve : list rvec -> list rvec -> option (list rvec).
  #[local] Hint Extern 0 (Num R) => exact (RNum solve) : typeclass_instances.
  Notation obj := (obj R).

  Lemma dot_commutes_R : dot_commutes (T := R).
  Proof. intros u v; apply Rdot_comm. Qed.

  Lemma learning_rule_textbook (o : obj) e x dw : textbook (o_ext o) (o_mu o) e x = Some dw ->
    learning_rule e x o = (o, Ok dw).
  Proof.
    unfold learning_rule; unfold bind, get, ret.
    destruct (o_ext o) eqn:E; simpl; intros H; try discriminate; injection H as <-.
    - reflexivity.
    - f_equal; f_equal; apply map_ext; intros; simpl; ring.
    - f_equal; f_equal; apply map_ext; intros; simpl; ring.
    - reflexivity.
    - f_equal; f_equal; apply map_ext; intros; simpl; unfold normsq; ring.
    - f_equal; f_equal; apply map_ext; intros; simpl; unfold normsq; ring.
    - reflexivity.
    - reflexivity.
    - reflexivity.
  Qed.

  Lemma textbook_length c mu e x dw : textbook c mu e x = Some dw -> length dw = length x.
  Proof.
    destruct c; simpl; intros H; try discriminate; injection H as <-;
      rewrite ?vsc_length, ?map_length, ?repeat_length; reflexivity.
  Qed.

  Lemma textbook_some c mu e x e' x' dw : textbook c mu e x = Some dw -> exists dw', textbook c mu e' x' = Some dw'.
  Proof. destruct c; simpl; intros H; try discriminate; eauto. Qed.

  (** one adapt step of a memoryless class *)
  Lemma adapt_textbook (o : obj) d x dw :
    length x = length (o_w o) ->
    textbook (o_ext o) (o_mu o) (d - Rdot (o_w o) x) x = Some dw ->
    adapt d x o = (set_w (vadd (o_w o) dw) o, Ok tt).
  Proof.
    intros Hl Ht.
    assert (Hap : is_AP o = false) by (unfold is_AP; destruct (o_ext o); auto; discriminate).
    assert (Hoc : is_OCNLMS o = false) by (unfold is_OCNLMS; destruct (o_ext o); auto; discriminate).
    unfold adapt; unfold bind at 1, get at 1; rewrite Hap. unfold adapt_base, bind.
    rewrite predict_plain by assumption. rewrite vdot_ok by congruence.
    erewrite learning_rule_textbook by exact Ht.
    rewrite (iadd_w_ok (length x)); [reflexivity|auto|]. eapply textbook_length; eauto.
  Qed.

  (** ** Trajectories *)
  Lemma adapt_all_Ok_split (d : rvec) x (o : obj) k :
    length d = length x -> (k < length x)%nat ->
    snd (adapt_all d x o) = Ok tt ->
    adapt (nth k d 0) (nth k x []) (state_after k d x o) = (state_after (S k) d x o, Ok tt).
  Proof.
    revert x o k; induction d as [|d0 d IH]; intros [|x0 x] o k Hl Hk HO; simpl in Hl, Hk; try lia.
    apply adapt_all_Ok_cons in HO as (H1 & H2 & _).
    destruct k as [|k].
    - unfold state_after; cbn [firstn adapt_all nth]. destruct d, x; cbn [firstn adapt_all]; unfold bind, ret;
      simpl in H1 |- *; destruct (adapt d0 x0 o) as [o1 [[]|ex]]; simpl in *; congruence.
    - cbn [nth]. specialize (IH x (fst (adapt d0 x0 o)) k ltac:(lia) ltac:(lia) H2).
      unfold state_after in *. rewrite (firstn_cons k d0), (firstn_cons k x0), (firstn_cons (S k) d0), (firstn_cons (S k) x0).
      cbn [adapt_all]. unfold bind.
      destruct (adapt d0 x0 o) as [o1 [[]|ex]]; simpl in H1; [|discriminate]. exact IH.
  Qed.

  (** everything about step k of a successful run *)
  Lemma run_step n (o o' : obj) d x y e w k :
    wf n o -> rowsl n x -> run d x o = (o', Ok (y, e, w)) -> (k < length x)%nat ->
    exists s s', wf n s /\ frame o s /\
      s = state_after k d x o /\ s' = state_after (S k) d x o /\
      adapt (nth k d 0) (nth k x []) s = (s', Ok tt) /\
      o_w s = wrow w (o_w o') k /\ o_w s' = wrow w (o_w o') (S k) /\
      nth k y 0 = pred_out s (nth k x []) /\
      nth k e 0 = nth k d 0 - nth k y 0 /\ length (nth k x []) = n.
  Proof.
    intros Hwf Hx E Hk.
    assert (Hl : length d = length x).
    { destruct (Nat.eq_dec (length d) (length x)) as [|Hc]; auto.
      rewrite run_bad_length in E by assumption; discriminate. }
    assert (Hne : x <> []) by (intros ->; simpl in Hk; lia).
    destruct (run_eq n o d x Hwf Hx Hl Hne) as (h & E' & _).
    rewrite E in E'. destruct (snd (adapt_all d x o)) as [[]|] eqn:HO; [|discriminate].
    simpl in E'. injection E' as -> -> -> ->.
    exists (state_after k d x o), (state_after (S k) d x o).
    assert (Hs : wf n (state_after k d x o) /\ frame o (state_after k d x o)).
    { unfold state_after. destruct (adapt_all_ok n (firstn k d) (firstn k x) o Hwf) as (s & r & -> & H1 & _ & H2 & _).
      - apply firstn_rows; auto.
      - split; auto. }
    assert (Hrow : forall j, (j <= length x)%nat -> o_w (state_after j d x o) = wrow (wtrace d x o) (o_w (fst (adapt_all d x o))) j).
    { intros j Hj; unfold wrow. pose proof (wtrace_length d x o Hl) as Hwl.
      destruct (Nat.eq_dec j (length x)) as [->|Hne'].
      - rewrite app_nth2 by lia. rewrite Hwl, Nat.sub_diag. simpl.
        unfold state_after; rewrite !firstn_all2 by lia; reflexivity.
      - rewrite app_nth1 by lia. rewrite wtrace_nth by (auto; lia). reflexivity. }
    split; [apply Hs|]. split; [apply Hs|]. split; [reflexivity|]. split; [reflexivity|].
    split; [apply adapt_all_Ok_split; auto|].
    split; [apply Hrow; lia|]. split; [apply Hrow; lia|].
    split; [exact (ytrace_nth d x o k Hl Hk HO)|].
    split; [|apply nth_rows; auto].
    assert (Hly : length (ytrace d x o) = length d) by (rewrite ytrace_length; auto).
    revert Hk; rewrite <- Hl. revert Hly; generalize (ytrace d x o) as yy. clear.
    revert k; induction d as [|a d IH]; intros [|k] [|b y] Hly Hk; simpl in *; try lia; auto.
    apply IH; lia.
  Qed.

  (** memoryless classes: the class attributes and mu never change, the weights follow the textbook rule *)
  Lemma state_after_textbook n (o : obj) d x k :
    wf n o -> rowsl n x -> (forall e v, textbook (o_ext o) (o_mu o) e v <> None) ->
    o_ext (state_after k d x o) = o_ext o /\ o_mu (state_after k d x o) = o_mu o.
  Proof.
    intros Hwf Hx Ht; unfold state_after.
    assert (Hx' : rowsl n (firstn k x)) by (apply firstn_rows; auto).
    revert Hx'; generalize (firstn k d) (firstn k x). clear x Hx. intros ds xs; revert xs o Hwf Ht.
    induction ds as [|d0 ds IH]; intros [|x0 xs] o Hwf Ht Hx; cbn [adapt_all]; auto.
    inversion Hx; subst.
    destruct (textbook (o_ext o) (o_mu o) (d0 - Rdot (o_w o) x0) x0) as [dw|] eqn:E; [|exfalso; eapply Ht; eauto].
    unfold bind. pose proof (adapt_textbook o d0 x0 dw) as Ha. rewrite Ha by (auto; symmetry; apply Hwf).
    destruct (IH xs (set_w (vadd (o_w o) dw) o)) as (H1' & H2'); auto.
    destruct Hwf as (Hw & Hn & Hxx); split; [|split]; simpl; auto.
    apply vadd_length; [auto|]. apply (textbook_length _ _ _ _ _ E).
  Qed.

  Lemma run_textbook n (o o' : obj) d x y e w k :
    wf n o -> rowsl n x -> (forall e v, textbook (o_ext o) (o_mu o) e v <> None) ->
    run d x o = (o', Ok (y, e, w)) -> (k < length x)%nat ->
    exists dw,
      textbook (o_ext o) (o_mu o) (nth k e 0) (nth k x []) = Some dw /\
      wrow w (o_w o') (S k) = vadd (wrow w (o_w o') k) dw /\
      nth k y 0 = Rdot (wrow w (o_w o') k) (nth k x []) /\
      nth k e 0 = nth k d 0 - nth k y 0 /\
      length (wrow w (o_w o') k) = n /\ length (nth k x []) = n.
  Proof.
    intros Hwf Hx Ht E Hk.
    destruct (run_step n o o' d x y e w k Hwf Hx E Hk) as (s & s' & Hs & Hf & Es & Es' & Ha & Hw & Hw' & Hy & He & Hlx).
    destruct (state_after_textbook n o d x k Hwf Hx Ht) as (Hext & Hmu). rewrite <- Es in *.
    assert (Hap : is_AP s = false).
    { unfold is_AP; rewrite Hext. destruct (o_ext o); auto; exfalso; apply (Ht 0 []); reflexivity. }
    assert (Hoc : is_OCNLMS s = false).
    { unfold is_OCNLMS; rewrite Hext. destruct (o_ext o); auto; exfalso; apply (Ht 0 []); reflexivity. }
    assert (Hp : pred_out s (nth k x []) = Rdot (o_w s) (nth k x [])).
    { unfold pred_out; rewrite Hap, predict_plain by assumption. rewrite vdot_ok; [reflexivity|]. rewrite Hlx; apply Hs. }
    rewrite Hp in Hy. rewrite Hw in *.
    destruct (textbook (o_ext o) (o_mu o) (nth k e 0) (nth k x [])) as [dw|] eqn:Et; [|exfalso; eapply Ht; eauto].
    exists dw; split; [reflexivity|].
    assert (Hlw : length (o_w s) = n) by apply Hs. rewrite Hw in Hlw.
    split; [|repeat split; auto].
    rewrite (adapt_textbook s _ _ dw) in Ha.
    - injection Ha as <-. rewrite <- Hw', <- Hw. reflexivity.
    - rewrite Hlx, Hw; auto.
    - rewrite Hext, Hmu, Hw, <- Hy, <- He. exact Et.
  Qed.
End RF.
