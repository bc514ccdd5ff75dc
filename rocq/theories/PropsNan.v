(** Property C60: a nan that enters a filter (through a target, an input or a weight) is never washed out: it poisons
    all weights at once and every later output.  Any arithmetic with an absorbing number; nan of binary64 is one. *)
From Coq Require Import QArith.
From Verif Require Import Py Num Numpy Filters Registry Spec StructProofs RunProofs Reach Steps KeepProofs.
Open Scope nat_scope.

Section Spec.
  Context {T : Type} {NT : Num T}.
  Notation vec := (list T).
  Notation mat := (list (list T)).
  Notation obj := (obj T).

  (** ** Specification *)
  (** a number that every operation of the filters passes on, as IEEE nan: + - *, np.sign, np.tanh, the third
      power, and np.dot as soon as one of the factors is it.  Nothing is asked of division, exp, the power with float
      exponent. *)
  Record absorbing (bad : T) : Prop := {
    abs_add_l : forall a, nadd bad a = bad; abs_add_r : forall a, nadd a bad = bad;
    abs_sub_l : forall a, nsub bad a = bad; abs_sub_r : forall a, nsub a bad = bad;
    abs_mul_l : forall a, nmul bad a = bad; abs_mul_r : forall a, nmul a bad = bad;
    abs_sign : nsign bad = bad; abs_tanh : ntanh bad = bad; abs_cube : npown bad 3 = bad;
    abs_dot : forall u v : vec, length u = length v -> In bad u \/ In bad v -> ndot u v = bad }.

  (** np.linalg.solve(A, B) with k x k arguments returns a k x k array, if it returns *)
  Definition solver_shapes : Prop := forall k (A B X : mat),
    length A = k -> rows_of k A -> length B = k -> rows_of k B -> nsolve A B = Some X ->
    length X = k /\ rows_of k X.

  (** the base class AdaptiveFilter, which does not learn *)
  Definition is_base (o : obj) : bool := match o_ext o with XBase => true | _ => false end.
End Spec.

Section Props.
  Context {T : Type} {NT : Num T}.
  Notation vec := (list T).
  Notation mat := (list (list T)).
  Notation obj := (obj T).

  (** *** an invariant of predict and adapt is one of every call *)
  Lemma exec_inv n (Inv : obj -> Prop) :
    (forall o h, Inv o -> Inv (set_hist h o)) ->
    (forall o x, wf n o -> Inv o -> length x = n -> Inv (fst (predict x o))) ->
    (forall o d x, wf n o -> Inv o -> length x = n -> Inv (fst (adapt d x o))) ->
    forall p o, wf n o -> op_shape n p -> Inv o -> Inv (exec p o).
  Proof.
    intros Hh Hp Ha.
    assert (Hall : forall d x o, wf n o -> rowsl n x -> Inv o -> Inv (fst (adapt_all d x o))).
    { induction d as [|d0 d IH]; intros [|x0 x] o Hwf Hx HI; auto. pose proof (Forall_inv Hx) as Hx0. cbn beta in Hx0. apply Forall_inv_tail in Hx.
      cbn [adapt_all]. unfold bind. pose proof (Ha o d0 x0 Hwf HI Hx0) as H1.
      destruct (adapt_ok n o d0 x0 Hwf Hx0) as (o1 & r1 & E1 & Hwf1 & _). rewrite E1 in H1 |- *. cbn [fst] in H1.
      destruct r1 as [[]|ex]; [|exact H1]. apply IH; auto. }
    assert (Hrun : forall d x o, wf n o -> rowsl n x -> Inv o -> Inv (fst (run d x o))).
    { intros d x o Hwf Hx HI. destruct (Nat.eq_dec (length d) (length x)) as [Hl|Hl]; [|rewrite run_bad_length by assumption; exact HI].
      destruct x as [|x0 x]; [destruct d; [exact HI|discriminate]|].
      destruct (run_fst n o d (x0 :: x) Hwf Hx Hl) as (h & ->); [discriminate|]. apply Hh, Hall; auto. }
    intros p o Hwf Hs HI. destruct p as [x|d x|d x|d x nt ep]; cbn [exec op_shape] in *; auto.
    unfold pretrained_run. set (N := ntrunc _). clearbody N.
    assert (H1 : rowsl n (slice_to x N)) by (apply firstn_rows; exact Hs).
    assert (H2 : rowsl n (slice_from x N)) by (apply skipn_rows; exact Hs).
    revert H1 H2. generalize (slice_to x N), (slice_from x N), (slice_to d N), (slice_from d N). clear x d Hs nt N.
    intros x1 x2 d1 d2 H1 H2. revert o Hwf HI.
    induction ep as [|ep IH]; intros o Hwf HI; cbn [repeat_m].
    - unfold bind, ret. apply Hrun; auto.
    - pose proof (Hrun d1 x1 o Hwf H1 HI) as HM1. pose proof (run_wf n d1 x1 o Hwf H1) as Hwf1.
      unfold bind in *. destruct (run d1 x1 o) as [o' [v|ex]]; cbn [fst] in *; [|exact HM1].
      unfold ret at 1. cbv beta iota. apply IH; auto.
  Qed.

  (** *** the right-hand side and the regularisation of AP keep their shapes *)
  Definition ap_ident (o : obj) : Prop :=
    match o_ext o with
    | XAP ord _ _ ii id _ _ => id = identity ord /\ length ii = ord /\ rowsl ord ii
    | _ => True
    end.

  Lemma ap_ident_keep n (o : obj) d x : wf n o -> length x = n -> ap_ident o -> ap_ident (fst (adapt d x o)).
  Proof.
    intros Hwf Hl HI. destruct (o_ext o) as [| | | | | | | | | | | | | | | ord xm dm ii id ym em] eqn:E.
    16:{ rewrite (adapt_AP_step n o d x ord xm dm ii id ym em Hwf Hl E). unfold ap_ident in HI. rewrite E in HI.
         destruct (nsolve _ _); exact HI. }
    all: destruct (adapt_ok n o d x Hwf Hl) as (o1 & r1 & E1 & _ & _ & (_ & _ & Hk) & _); rewrite E1; cbn [fst];
      unfold ap_ident; rewrite E in Hk; destruct (o_ext o1); try exact I; discriminate Hk.
  Qed.

  Lemma ap_ident_reachable n (o : obj) : reachable n o -> ap_ident o.
  Proof.
    induction 1 as [rng k kw o Hrng Hkw Hn Ho | rng mu w o Hrng Ho | o p Hr IH Hs | o c Hr IH Hs].
    - revert Ho. unfold new_filter. destruct (kw_other kw); [discriminate|].
      destruct (existsb _ _); [discriminate|]. rewrite Hn.
      destruct (match kw_mu kw with Some _ => _ | None => _ end) as [mu|]; [|discriminate].
      destruct (init_base _ _ _ _ _) as [o0|]; cbn [rbind rmap]; [|discriminate]. rewrite Nat2Z.id.
      destruct k; cbn [init_ext rbind rmap]; intros Ho;
        try (injection Ho as <-; unfold ap_ident; cbn [set_ext o_ext]; exact I).
      + injection Ho as <-; unfold ap_ident; cbn [set_ext o_ext].
        split; [reflexivity|]. rewrite mscale_length, identity_length. split; [reflexivity|]. apply mscale_rows, identity_rows.
      + destruct (neqb _ _); cbn [rbind rmap] in Ho; [discriminate|]. injection Ho as <-; unfold ap_ident; cbn [set_ext o_ext]; exact I.
    - revert Ho. unfold init_base. destruct (_ =? _)%Z; [discriminate|]. destruct (init_weights _ _ _); cbn [rbind rmap]; [|discriminate].
      intros [= <-]. exact I.
    - apply (exec_inv n ap_ident); auto.
      + intros o0 x Hwf HI Hl. destruct (is_OCNLMS o0) eqn:Eo; [|rewrite predict_plain by exact Eo; exact HI].
        destruct (predict_ok n o0 x Hwf Hl) as (o1 & y & E1 & _ & _ & _ & (_ & _ & Hk)). rewrite E1. cbn [fst].
        unfold is_OCNLMS in Eo. unfold ap_ident. destruct (o_ext o0); try discriminate Eo. destruct (o_ext o1); try discriminate Hk; exact I.
      + intros o0 d x Hwf HI Hl. apply (ap_ident_keep n); auto.
      + apply reachable_wf; assumption.
    - apply reachable_wf in Hr. destruct (is_AP o) eqn:Ea.
      + assert (Ex : o_ext (exec_call c o) = o_ext o); [|unfold ap_ident in *; rewrite Ex; exact IH].
        unfold is_AP in Ea. destruct c; cbn [exec_call]; try reflexivity;
          [| | | | |destruct (o_ext o) eqn:E; try discriminate Ea; destruct p; reflexivity];
          unfold learning_rule, clear_memory, update_memory_x, update_memory_d, read_memory, bind, get;
          destruct (o_ext o) eqn:E; try discriminate Ea; cbn [fst raise lift ret]; exact E.
      + assert (Hk : kind_eq (o_ext o) (o_ext (exec_call c o)) = true).
        { destruct c; cbn [exec_call]; try (cbn [set_w o_ext]; apply kind_eq_refl);
            [| | | | |destruct (o_ext o), p; reflexivity].
          - destruct (learning_rule_ok n o e x Hr Hs Ea) as [(o' & dw & -> & _ & _ & _ & _ & (_ & _ & Hk))|(-> & _)]; [exact Hk|apply kind_eq_refl].
          - unfold clear_memory, bind, get. destruct (o_ext o) eqn:E; cbn [raise modify fst]; rewrite ?E; try reflexivity.
          - unfold update_memory_x, bind, get. destruct (o_ext o) as [| | | | | | | | | | |eps mem em mx md idx| | | |] eqn:E; cbn [raise modify fst]; rewrite ?E; try reflexivity.
            destruct (idx <? length mx); [|cbn [raise fst]; rewrite E; reflexivity].
            destruct (length x =? _); [reflexivity|]. destruct x as [|a [|b x]]; cbn [raise modify fst ret]; rewrite ?E; reflexivity.
          - unfold update_memory_d, bind, get. destruct (o_ext o) as [| | | | | | | | | | |eps mem em mx md idx| | | |] eqn:E; cbn [raise modify fst]; rewrite ?E; try reflexivity.
            destruct (_ <? length md); cbn [raise modify fst]; rewrite ?E; reflexivity.
          - destruct (o_ext o) as [| | | | | | | | | | |eps mem em mx md idx| | | |] eqn:E;
              try (unfold read_memory, bind, get; rewrite E; cbn [raise fst]; rewrite E; reflexivity).
            destruct (read_memory_ok n o eps mem em mx md idx Hr E) as (md' & mx' & em' & idx' & -> & _ & Hi). reflexivity. }
        unfold is_AP in Ea. unfold ap_ident. destruct (o_ext o); try discriminate Ea; destruct (o_ext (exec_call c o)); try discriminate Hk; exact I.
  Qed.

  Section Bad.
    Variable bad : T.
    Hypothesis HB : absorbing bad.

    Lemma scale_bad_l c (v : vec) n : length v = n -> c = bad -> vscale c v = repeat bad n.
    Proof. intros Hl ->. revert n Hl; induction v as [|a v IH]; intros [|n] Hl; try discriminate; [reflexivity|].
      cbn [vscale map repeat]. rewrite (abs_mul_l _ HB). f_equal. apply IH. cbn in Hl; lia. Qed.
    Lemma map_bad (f : T -> T) (v : vec) n : length v = n -> (forall a, f a = bad) -> map f v = repeat bad n.
    Proof. intros Hl Hf. revert n Hl; induction v as [|a v IH]; intros [|n] Hl; try discriminate; [reflexivity|].
      cbn [map repeat]. rewrite Hf. f_equal. apply IH. cbn in Hl; lia. Qed.
    Lemma add_bad (w dw : vec) n : length w = n -> dw = repeat bad n -> map2 nadd w dw = repeat bad n.
    Proof. intros Hl ->. revert n Hl; induction w as [|a w IH]; intros [|n] Hl; try discriminate; [reflexivity|].
      cbn [repeat map2]. rewrite (abs_add_r _ HB). f_equal. apply IH. cbn in Hl; lia. Qed.
    Lemma sub_in (u v : vec) : length u = length v -> In bad u -> In bad (map2 nsub u v).
    Proof. revert v; induction u as [|a u IH]; intros [|b v] Hl Hin; try discriminate; [destruct Hin|].
      cbn [map2]. destruct Hin as [<-|Hin]; [left; apply (abs_sub_l _ HB)|right; apply IH; auto]. Qed.
    Lemma repeat_in n : 0 < n -> In bad (repeat bad n).
    Proof. destruct n; [lia|]. left; reflexivity. Qed.

    (** *** outputs *)
    Lemma out_bad n (o : obj) x : wf n o -> length x = n -> In bad (o_w o) \/ In bad x -> pred_out o x = bad.
    Proof.
      intros Hwf Hl Hin. pose proof Hwf as (Hw & _). destruct (is_AP o) eqn:Ea.
      - unfold pred_out. rewrite Ea. apply (abs_dot _ HB); [congruence|tauto].
      - destruct (is_OCNLMS o) eqn:Eo.
        + unfold is_OCNLMS in Eo. destruct (o_ext o) as [| | | | | | | | | | | eps mem em mx md idx | | | |] eqn:E; try discriminate.
          rewrite (pred_out_OCNLMS n o x _ _ _ _ _ _ Hwf Hl E). unfold oc_y. rewrite (abs_dot _ HB); [apply (abs_add_l _ HB)| |].
          * rewrite Hw. symmetry. apply map2_length_eq; [exact Hl|apply oc_read_length].
          * destruct Hin as [Hin|Hin]; [left; exact Hin|right]. apply sub_in; [rewrite oc_read_length; exact Hl|exact Hin].
        + rewrite (pred_out_plain n) by auto. apply (abs_dot _ HB); [congruence|tauto].
    Qed.

    Theorem C60_prediction : forall n (o o' : obj) x y, reachable n o -> length x = n ->
      In bad (o_w o) \/ In bad x -> predict x o = (o', Ok y) -> y = bad.
    Proof.
      intros n o o' x y Hr Hl Hin HP. apply reachable_wf in Hr. pose proof (out_bad n o x Hr Hl Hin) as H.
      unfold pred_out in H. rewrite HP in H. destruct (is_AP o) eqn:Ea; [|exact H].
      assert (Eo : is_OCNLMS o = false) by (unfold is_AP in Ea; unfold is_OCNLMS; destruct (o_ext o); auto).
      rewrite predict_plain in HP by exact Eo. rewrite vdot_ok in HP by (destruct Hr; congruence). injection HP as _ <-.
      apply (abs_dot _ HB); [destruct Hr; congruence|exact Hin].
    Qed.

    (** *** a bad weight stays *)
    Lemma keep_bad (w dw : vec) i : length w = length dw -> i < length w -> nth i w n0 = bad -> nth i (map2 nadd w dw) n0 = bad.
    Proof.
      revert dw i; induction w as [|a w IH]; intros [|b dw] [|i] Hl Hi H; cbn in *; try lia.
      - rewrite H. apply (abs_add_l _ HB).
      - apply IH; lia || auto.
    Qed.

    (** the weights after adapt: the old ones, or the old ones plus an update *)
    Lemma adapt_weights n (o : obj) d x : wf n o -> length x = n ->
      o_w (fst (adapt d x o)) = o_w o \/ exists dw, length dw = n /\ o_w (fst (adapt d x o)) = map2 nadd (o_w o) dw.
    Proof.
      intros Hwf Hl. pose proof Hwf as (Hw & _). destruct (is_AP o) eqn:Ea.
      - unfold is_AP in Ea. destruct (o_ext o) as [| | | | | | | | | | | | | | | ord xm dm ii id ym em] eqn:E; try discriminate.
        rewrite (adapt_AP_step n o d x ord xm dm ii id ym em Hwf Hl E). destruct (nsolve _ _) as [G|]; cbn; [right|left; reflexivity].
        eexists; split; [|reflexivity]. rewrite vscale_length, mv_length. destruct Hwf as (_ & _ & Hx). rewrite E in Hx.
        destruct Hx as (_ & Hx & _). apply push_x_length; auto.
      - unfold adapt. unfold bind, get. rewrite Ea. unfold adapt_base, bind.
        destruct (predict_ok n o x Hwf Hl) as (o1 & y & E1 & Hwf1 & Hw1 & _ & (_ & _ & Hk)). rewrite E1.
        assert (Ea1 : is_AP o1 = false) by (unfold is_AP in *; destruct (o_ext o), (o_ext o1); try discriminate; auto).
        destruct (learning_rule_ok n o1 (nsub d y) x Hwf1 Hl Ea1) as [(o2 & dw & -> & Hd & Hwf2 & Hw2 & _)|(-> & _)]; [|left; exact Hw1].
        rewrite (iadd_w_ok n) by (auto; apply Hwf2). right. exists dw. split; [exact Hd|]. cbn. congruence.
    Qed.

    Theorem C60_never_recovers : forall n (o : obj) ps i, reachable n o -> Forall (op_shape n) ps -> i < n ->
      nth i (o_w o) n0 = bad -> nth i (o_w (exec_all ps o)) n0 = bad.
    Proof.
      intros n o ps i Hr HF Hi Hb. apply reachable_wf in Hr.
      revert o Hr Hb; induction ps as [|p ps IH]; intros o Hwf Hb; [exact Hb|].
      pose proof (Forall_inv HF) as Hp. apply Forall_inv_tail in HF.
      change (exec_all (p :: ps) o) with (exec_all ps (exec p o)). apply IH; [exact HF|apply exec_wf; auto|].
      apply (exec_inv n (fun o => nth i (o_w o) n0 = bad)); auto.
      - intros o0 x Hwf0 H0 Hl. destruct (predict_ok n o0 x Hwf0 Hl) as (o1 & y & -> & _ & Hw & _). cbn. rewrite Hw. exact H0.
      - intros o0 d x Hwf0 H0 Hl. pose proof Hwf0 as (Hw0 & _).
        destruct (adapt_weights n o0 d x Hwf0 Hl) as [->|(dw & Hd & ->)]; [exact H0|].
        apply keep_bad; congruence || lia.
    Qed.

    (** *** one bad number poisons everything *)
    Lemma poisoned_adapt n (o : obj) d x : solver_shapes -> wf n o -> ap_ident o -> is_base o = false -> length x = n ->
      d = bad \/ In bad x \/ In bad (o_w o) -> snd (adapt d x o) = Ok tt -> o_w (fst (adapt d x o)) = repeat bad n.
    Proof.
      intros HS Hwf Hid Hb Hl Hin HO. pose proof Hwf as (Hw & _ & Hwe).
      assert (He : nsub d (pred_out o x) = bad).
      { destruct Hin as [->|Hin]; [apply (abs_sub_l _ HB)|]. rewrite (out_bad n) by (auto; tauto). apply (abs_sub_r _ HB). }
      destruct (is_AP o) eqn:Ea.
      { unfold is_AP in Ea. destruct (o_ext o) as [| | | | | | | | | | | | | | | ord xm dm ii id ym em] eqn:E; try discriminate.
        pose proof (adapt_AP_step n o d x ord xm dm ii id ym em Hwf Hl E) as HA. cbv zeta in HA. rewrite HA in HO |- *. clear HA.
        destruct (nsolve _ _) as [G|] eqn:EG; [|discriminate HO]. cbn [fst set_w o_w]. apply add_bad; [exact Hw|].
        destruct Hwe as (Hord & Hlx & Hrx & Hld). unfold ap_ident in Hid. rewrite E in Hid. destruct Hid as (-> & Hli & Hri).
        assert (Hpx : length (push_x ord xm x) = n) by (apply push_x_length; auto).
        assert (Hpr : rowsl ord (push_x ord xm x)) by (apply push_x_rows; auto).
        assert (HGG : length G = ord /\ rows_of ord G).
        { eapply HS; [| | | |exact EG].
          - apply map2_length_eq; [rewrite mm_length, transpose_length; reflexivity|exact Hli].
          - apply map2_rows; [apply mm_rows|exact Hri].
          - apply identity_length.
          - apply identity_rows. }
        destruct HGG as (HG1 & HG2).
        set (em' := map2 nsub _ _).
        assert (Hem : length em' = ord).
        { unfold em'. apply map2_length_eq; [apply push_d_length; auto|rewrite mv_length, transpose_length; reflexivity]. }
        assert (Hbe : In bad em').
        { unfold em', push_d. unfold mv. destruct ord as [|ord]; [lia|].
          pose proof (transpose_push_0 (S ord) xm x ltac:(lia) ltac:(congruence)) as Ht.
          assert (Hlt : length (transpose (S ord) (push_x (S ord) xm x)) = S ord) by apply transpose_length.
          destruct (transpose (S ord) (push_x (S ord) xm x)) as [|r0 rr]; [discriminate Hlt|]. cbn [nth] in Ht. subst r0.
          cbn [map map2]. left. unfold pred_out, is_AP in He. rewrite E in He. exact He. }
        assert (HGe : mv G em' = repeat bad ord).
        { unfold mv. revert HG2 HG1. generalize ord at 2 3. clear - Hem Hbe HB. intros k HG2. revert k. induction HG2 as [|g G Hg HG IH]; intros [|k] HG1; try discriminate; [reflexivity|].
          cbn [map repeat]. rewrite (abs_dot _ HB); [f_equal; apply IH; cbn in HG1; lia|congruence|right; exact Hbe]. }
        rewrite HGe.
        assert (HX : mv (push_x ord xm x) (repeat bad ord) = repeat bad n).
        { unfold mv. revert Hpr Hpx. generalize (push_x ord xm x) as X. clear - HB Hord. intros X HX. revert n.
          induction HX as [|g X Hg HX IH]; intros [|k] HG1; try discriminate; [reflexivity|].
          cbn [map repeat]. rewrite (abs_dot _ HB); [f_equal; apply IH; cbn in HG1; lia|rewrite repeat_length; congruence|right; apply repeat_in; lia]. }
        rewrite HX. unfold vscale. clear - HB. induction n as [|n IH]; [reflexivity|]. cbn [repeat map]. rewrite (abs_mul_r _ HB). f_equal. exact IH. }
      destruct (is_OCNLMS o) eqn:Eo.
      { unfold is_OCNLMS in Eo. destruct (o_ext o) as [| | | | | | | | | | | eps mem em mx md idx | | | |] eqn:E; try discriminate.
        rewrite (pred_out_OCNLMS n o x _ _ _ _ _ _ Hwf Hl E) in He.
        rewrite (adapt_OCNLMS n o d x _ _ _ _ _ _ Hwf Hl E). cbv zeta. cbn [fst set_w o_w]. apply add_bad; [exact Hw|].
        apply scale_bad_l; [apply map2_length_eq; [exact Hl|apply oc_read_length]|]. rewrite He. apply (abs_mul_r _ HB). }
      rewrite (pred_out_plain n) in He by auto.
      assert (Hplain : forall dw, learning_rule (nsub d (ndot (o_w o) x)) x o = (o, Ok dw) -> dw = repeat bad n -> o_w (fst (adapt d x o)) = repeat bad n).
      { intros dw Hlr Hdw. rewrite (adapt_plain n o d x o dw) by (auto; subst dw; apply repeat_length). cbn [fst set_w o_w]. apply add_bad; auto. }
      destruct (o_ext o) as [| | | | eps | eps | eps | la al | la | eps ro le lx | eps Rm | eps mem em mx md idx | ro a le lx lf lm | ro le lx lf lm | ro le lx lm | ord xm dm ii id ym em] eqn:E;
        try (unfold is_AP in Ea; rewrite E in Ea; discriminate Ea); try (unfold is_OCNLMS in Eo; rewrite E in Eo; discriminate Eo).
      { unfold is_base in Hb. rewrite E in Hb. discriminate. }
      1-8: eapply Hplain; [unfold learning_rule, bind, get, ret; rewrite E; reflexivity|]; rewrite He;
        try (apply map_bad; [exact Hl|intros a; rewrite ?(abs_cube _ HB), ?(abs_sign _ HB); apply (abs_mul_r _ HB)]).
      - apply scale_bad_l; [exact Hl|]. rewrite (abs_sign _ HB). apply (abs_mul_r _ HB).
      - apply scale_bad_l; [exact Hl|]. rewrite (abs_mul_r _ HB), (abs_tanh _ HB). apply (abs_mul_r _ HB).
      - rewrite (adapt_GNGD n o d x _ _ _ _ Hwf Hl E). cbv zeta. cbn [fst set_w o_w]. rewrite He. apply add_bad; [exact Hw|].
        apply scale_bad_l; [exact Hl|]. apply (abs_mul_r _ HB).
      - destruct (neqb (o_mu o) n0) eqn:Emu.
        { rewrite (adapt_RLS_mu0 n o d x _ _ Hwf Hl E Emu) in HO. discriminate. }
        rewrite (adapt_RLS n o d x _ _ Hwf Hl E Emu). cbv zeta. cbn [fst set_w o_w]. rewrite He. apply add_bad; [exact Hw|].
        apply map_bad; [|intros a; apply (abs_mul_r _ HB)]. rewrite mv_length. destruct Hwe. apply rls_R_shape; auto.
      - rewrite (adapt_Ang n o d x _ _ _ _ _ _ Hwf Hl E). cbv zeta. cbn [fst set_w o_w]. rewrite He. apply add_bad; [exact Hw|].
        apply scale_bad_l; [exact Hl|]. apply (abs_mul_r _ HB).
      - rewrite (adapt_Benveniste n o d x _ _ _ _ _ Hwf Hl E). cbv zeta. cbn [fst set_w o_w]. rewrite He. apply add_bad; [exact Hw|].
        apply scale_bad_l; [exact Hl|]. apply (abs_mul_r _ HB).
      - rewrite (adapt_Mathews n o d x _ _ _ _ Hwf Hl E). cbv zeta. cbn [fst set_w o_w]. rewrite He. apply add_bad; [exact Hw|].
        apply scale_bad_l; [exact Hl|]. apply (abs_mul_r _ HB).
    Qed.

    (** an adapt call with a bad target or a bad input component, or with one bad weight, that returns leaves ALL
        weights bad *)
    Theorem C60_one_bad_sample : forall n (o o' : obj) d x, solver_shapes -> reachable n o -> is_base o = false ->
      length x = n -> d = bad \/ In bad x \/ In bad (o_w o) -> adapt d x o = (o', Ok tt) -> o_w o' = repeat bad n.
    Proof.
      intros n o o' d x HS Hr Hb Hl Hin HA. pose proof (poisoned_adapt n o d x HS (reachable_wf n o Hr) (ap_ident_reachable n o Hr) Hb Hl Hin) as H.
      rewrite HA in H. apply H. reflexivity.
    Qed.

    (** from a filter with bad weights on, everything is bad *)
    Lemma bad_trace n : 0 < n -> forall d x (o : obj), length d = length x -> wf n o -> rowsl n x ->
      o_w o = repeat bad n ->
      ytrace d x o = repeat bad (length x) /\ wtrace d x o = repeat (repeat bad n) (length x) /\ o_w (fst (adapt_all d x o)) = repeat bad n.
    Proof.
      intros Hn. induction d as [|d0 d IH]; intros [|x0 x] o Hld Hwf Hx Hb; try discriminate; [auto|]. pose proof (Forall_inv Hx) as Hx0. cbn beta in Hx0.
      apply Forall_inv_tail in Hx. cbn [ytrace wtrace adapt_all length repeat].
      assert (Hb1 : o_w (fst (adapt d0 x0 o)) = repeat bad n).
      { destruct (adapt_weights n o d0 x0 Hwf Hx0) as [->|(dw & Hd & ->)]; [exact Hb|]. rewrite Hb. clear - HB Hd. revert n Hd.
        induction dw as [|a dw IH]; intros [|n] Hd; try discriminate; [reflexivity|]. cbn [repeat map2]. rewrite (abs_add_l _ HB). f_equal. apply IH. cbn in Hd; lia. }
      destruct (adapt_ok n o d0 x0 Hwf Hx0) as (o1 & r1 & E1 & Hwf1 & _). unfold bind. rewrite E1 in Hb1 |- *. cbn [fst] in Hb1 |- *.
      destruct (IH x o1) as (H1 & H2 & H3); auto. rewrite H1, H2, Hb.
      rewrite (out_bad n) by (auto; rewrite Hb; left; apply repeat_in; exact Hn).
      split; [reflexivity|]. split; [reflexivity|]. destruct r1 as [[]|]; [exact H3|exact Hb1].
    Qed.

    Lemma poisoned_trace n : 0 < n -> solver_shapes -> forall k d x (o : obj), wf n o -> ap_ident o -> is_base o = false -> rowsl n x -> length d = length x ->
      k < length x -> nth k d n0 = bad \/ In bad (nth k x []) -> snd (adapt_all d x o) = Ok tt ->
      (nth k d n0 = bad \/ nth k (ytrace d x o) n0 = bad) /\
      (forall j, k < j < length x -> nth j (ytrace d x o) n0 = bad /\ nth j (wtrace d x o) [] = repeat bad n) /\
      o_w (fst (adapt_all d x o)) = repeat bad n.
    Proof.
      intros Hn HS. induction k as [|k IH]; intros [|d0 d] [|x0 x] o Hwf Hid Hb Hx Hld Hk Hp HO; cbn [length] in *; try lia;
        pose proof (Forall_inv Hx) as Hx0; cbn beta in Hx0; apply Forall_inv_tail in Hx;
        apply adapt_all_Ok_cons in HO as (HO1 & HO2 & ->); pose proof (adapt_ok n o d0 x0 Hwf Hx0) as (o1 & r1 & E1 & Hwf1 & _ & (_ & _ & Hk1) & _);
        pose proof (ap_ident_keep n o d0 x0 Hwf Hx0 Hid) as Hid1; cbn [ytrace wtrace nth] in *.
      - pose proof (poisoned_adapt n o d0 x0 HS Hwf Hid Hb Hx0 ltac:(tauto) HO1) as Hw1. rewrite E1 in *. cbn [fst] in *.
        destruct (bad_trace n Hn d x o1) as (H1 & H2 & H3); auto. split; [|split; [|exact H3]].
        + destruct Hp as [Hp|Hp]; [left; exact Hp|right]. apply (out_bad n); auto.
        + intros [|j] Hj; [lia|]. rewrite H1, H2. split; apply nth_error_nth; apply nth_error_repeat; lia.
      - rewrite E1 in *. cbn [fst] in *. destruct (IH d x o1) as (H1 & H2 & H3); auto; try lia.
        { unfold is_base in *. destruct (o_ext o), (o_ext o1); try discriminate; reflexivity. }
        split; [exact H1|]. split; [|exact H3]. intros [|j] Hj; [lia|]. apply H2. lia.
    Qed.

    (** run: if sample k has a bad target or input, the error of sample k, all later outputs, errors and weight
        rows and the weights the filter is left with are bad *)
    Theorem C60_run_poisoned : forall n (o o' : obj) d x y e w k, solver_shapes -> reachable n o -> is_base o = false -> 0 < n ->
      rows_of n x -> run d x o = (o', Ok (y, e, w)) -> k < length x -> nth k d n0 = bad \/ In bad (nth k x []) ->
      nth k e n0 = bad /\
      (forall j, k < j < length x -> nth j y n0 = bad /\ nth j e n0 = bad /\ nth j w [] = repeat bad n) /\
      o_w o' = repeat bad n.
    Proof.
      intros n o o' d x y e w k HS Hr Hb Hn Hx HR Hk Hp.
      assert (Hld : length d = length x) by (destruct (Nat.eq_dec (length d) (length x)) as [H|H]; [exact H|rewrite run_bad_length in HR by exact H; discriminate]).
      pose proof (reachable_wf n o Hr) as Hwf. pose proof (ap_ident_reachable n o Hr) as Hid.
      destruct (run_eq n o d x Hwf Hx Hld) as (h & HE & _); [destruct x; [cbn in Hk; lia|discriminate]|]. rewrite HE in HR.
      apply pair_equal_spec in HR as (<- & HR).
      assert (HO : snd (adapt_all d x o) = Ok tt) by (destruct (snd (adapt_all d x o)) as [[]|]; [reflexivity|discriminate]).
      rewrite HO in HR. cbn [rmap] in HR. injection HR as <- <- <-.
      destruct (poisoned_trace n Hn HS k d x o Hwf Hid Hb Hx Hld Hk Hp HO) as (H1 & H2 & H3).
      assert (Hen : forall j, j < length x -> nth j (map2 nsub d (ytrace d x o)) n0 = nsub (nth j d n0) (nth j (ytrace d x o) n0)).
      { intros j Hj. pose proof (ytrace_length d x o Hld) as Hy. revert Hy Hld Hj. generalize (ytrace d x o) as yy. clear.
        revert d j. induction x as [|x0 x IH]; intros [|d0 d] j [|y0 yy] Hy Hld Hj; cbn [length] in *; try lia.
        destruct j as [|j]; [reflexivity|]. cbn [map2 nth]. apply IH; lia. }
      split; [|split; [|exact H3]].
      - rewrite Hen by exact Hk. destruct H1 as [->| ->]; [apply (abs_sub_l _ HB)|apply (abs_sub_r _ HB)].
      - intros j Hj. destruct (H2 j Hj) as (Hy & Hw). rewrite Hen by lia. rewrite Hy, Hw. repeat split. apply (abs_sub_r _ HB).
    Qed.
  End Bad.
End Props.
