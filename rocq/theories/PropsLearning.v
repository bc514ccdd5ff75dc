(** C95: learning_rule called by the user directly, with an input of any length.  Any arithmetic. *)
From Coq Require Import QArith.
From Verif Require Import Py Num NumQ Numpy Filters Registry Spec StructProofs RunProofs Reach PropsRun.
Open Scope nat_scope.

(** ** Specification *)
Section Spec.
  Context {T : Type} {NT : Num T}.
  Notation vec := (list T).
  Notation obj := (obj T).
  (** the classes that keep nothing between samples but the weights *)
  Definition memoryless (o : obj) : bool :=
    match o_ext o with
    | XBase | XLMS | XLMF | XSSLMS | XNLMS _ | XNLMF _ | XNSSLMS _ | XGMCC _ _ | XLlncosh _ => true
    | _ => false
    end.
  Definition is_Ang (o : obj) : bool := match o_ext o with XAng _ _ _ _ _ _ => true | _ => false end.
  Definition is_Ben (o : obj) : bool := match o_ext o with XBenveniste _ _ _ _ _ => true | _ => false end.
  (** what the user's own loop does: f.w += f.learning_rule(e, x) *)
  Definition own_step (e : T) (x : vec) : M obj unit := bind (learning_rule e x) iadd_w.
  (** a filter on which nothing but predict works any more *)
  Definition dead (o : obj) : Prop :=
    (forall e x, learning_rule e x o = (o, Err ValueError)) /\
    (forall d x, adapt d x o = (o, Err ValueError)) /\
    (forall d xs y e w, snd (run d xs o) <> Ok (y, e, w)) /\
    (forall d xs nt ep y e w, snd (pretrained_run d xs nt ep o) <> Ok (y, e, w)).
End Spec.

Section Props.
  Context {T : Type} {NT : Num T}.
  Notation vec := (list T).
  Notation mat := (list (list T)).
  Notation obj := (obj T).

  (** ** the weights, the size, the learning rate and the recorded history are never touched *)
  Definition leaves {A} (m : M obj A) : Prop :=
    forall o, let o' := fst (m o) in o_w o' = o_w o /\ o_n o' = o_n o /\ o_mu o' = o_mu o /\ o_hist o' = o_hist o.
  Lemma leaves_bind {A B} (m : M obj A) (f : A -> M obj B) : leaves m -> (forall a, leaves (f a)) -> leaves (bind m f).
  Proof.
    intros Hm Hf o. unfold bind. specialize (Hm o). destruct (m o) as [o1 [a|ex]]; cbn [fst] in *; [|exact Hm].
    specialize (Hf a o1). cbn [fst] in Hf. destruct Hm as (A1 & A2 & A3 & A4), Hf as (B1 & B2 & B3 & B4). repeat split; congruence.
  Qed.
  Lemma leaves_ret {A} (a : A) : leaves (ret a). Proof. intros o; repeat split. Qed.
  Lemma leaves_raise {A} ex : leaves (raise (A:=A) ex). Proof. intros o; repeat split. Qed.
  Lemma leaves_get : leaves get. Proof. intros o; repeat split. Qed.
  Lemma leaves_lift {A} (r : result A) : leaves (lift r). Proof. intros o; repeat split. Qed.
  Lemma leaves_ext x : leaves (modify (set_ext x)). Proof. intros o; repeat split. Qed.
  Ltac lv := repeat match goal with
    | |- leaves (match ?m with _ => _ end) => destruct m
    | |- leaves (let '(_, _) := ?m in _) => destruct m
    | |- leaves (let _ := _ in _) => cbv zeta
    | |- leaves (if ?b then _ else _) => destruct b
    | |- leaves (bind _ _) => apply leaves_bind; [|intros]
    | |- leaves (ret _) => apply leaves_ret
    | |- leaves (raise _) => apply leaves_raise
    | |- leaves get => apply leaves_get
    | |- leaves (lift _) => apply leaves_lift
    | |- leaves (modify (set_ext _)) => apply leaves_ext
    end.
  Lemma leaves_update_x x : leaves (update_memory_x x). Proof. unfold update_memory_x; lv. Qed.
  Lemma leaves_update_d x : leaves (update_memory_d x). Proof. unfold update_memory_d; lv. Qed.
  Lemma leaves_read : leaves read_memory. Proof. unfold read_memory; lv. Qed.

  Theorem C95_touches_no_weight : forall e (x : vec) (o : obj), is_AP o = false -> let o' := fst (learning_rule e x o) in
    o_w o' = o_w o /\ o_n o' = o_n o /\ o_mu o' = o_mu o /\ o_hist o' = o_hist o.
  Proof.
    intros e x o _. apply (fun H : leaves (learning_rule e x) => H o).
    unfold learning_rule; lv; auto using leaves_update_x, leaves_update_d, leaves_read; lv.
  Qed.

  (** ** the memoryless classes: a pure function, whatever the length of x *)
  Theorem C95_memoryless : forall e (x : vec) (o : obj), memoryless o = true ->
    exists dw, learning_rule e x o = (o, Ok dw) /\ length dw = length x.
  Proof.
    intros e x o. unfold memoryless, learning_rule, bind, get, ret.
    destruct (o_ext o); intros H; try discriminate H; eexists; (split; [reflexivity|]);
      rewrite ?map_length, ?zeros_length, ?vscale_length; reflexivity.
  Qed.

  (** ** adapt(d, x) is learning_rule(d - w.x, x) added to the weights *)
  Theorem C95_adapt : forall n (o : obj) d (x : vec), reachable n o -> length x = n -> is_AP o = false -> is_OCNLMS o = false ->
    let e := nsub d (ndot (o_w o) x) in
    (forall o1 dw, learning_rule e x o = (o1, Ok dw) -> adapt d x o = (set_w (map2 nadd (o_w o) dw) o1, Ok tt)) /\
    (forall o1 ex, learning_rule e x o = (o1, Err ex) -> adapt d x o = (o1, Err ex)).
  Proof.
    intros n o d x Hr Hl HA HO e. pose proof (reachable_wf _ _ Hr) as Hwf.
    assert (E : adapt d x o = bind (learning_rule e x) iadd_w o).
    { unfold adapt, bind at 1, get. rewrite HA. unfold adapt_base. unfold bind at 1. rewrite predict_plain by exact HO.
      rewrite vdot_ok by (destruct Hwf as (-> & _); auto). reflexivity. }
    split.
    - intros o1 dw H. destruct (learning_rule_ok n o e x Hwf Hl HA) as [(o2 & dw2 & E2 & L2 & W2 & Ew & _)|(E2 & _)]; [|congruence].
      rewrite H in E2. injection E2 as <- <-. rewrite E. unfold bind. rewrite H.
      rewrite (iadd_w_ok n) by (destruct W2; auto; congruence). rewrite Ew. reflexivity.
    - intros o1 ex H. rewrite E. unfold bind. rewrite H. reflexivity.
  Qed.

  (** ** an input of the wrong length *)
  Theorem C95_rejected : forall n (o : obj) e (x : vec), reachable n o -> length x <> n -> is_AP o = false -> memoryless o = false ->
    is_Ang o = false -> is_Ben o = false -> (is_OCNLMS o = true -> length x <> 1) ->
    learning_rule e x o = (o, Err ValueError).
  Proof.
    intros n o e x Hr Hl HA HM H1 H2 H3. destruct (reachable_wf _ _ Hr) as (Hw & Hn & Hx).
    unfold learning_rule, bind, get, lift, raise. unfold is_AP, memoryless, is_Ang, is_Ben, is_OCNLMS in *.
    destruct (o_ext o) as [| | | | | | | | | eps ro le lx | eps R | eps mem em mx md idx | | | ro le lx lm |] eqn:E;
      cbn [wf_ext] in Hx; try discriminate.
    - unfold vdot. destruct (Nat.eqb_spec (length x) (length lx)); [congruence|reflexivity].
    - destruct Hx as (HR & _). destruct (Nat.eqb_spec (length R) (length x)); [congruence|]. reflexivity.
    - destruct Hx as (Hm & Hlx & Hrx & Hld & Hi). unfold update_memory_x, bind, get, raise. rewrite E.
      replace (idx <? length mx) with true by (symmetry; apply Nat.ltb_lt; lia).
      assert (Hc : length (nth idx mx []) = n) by (unfold rowsl in Hrx; rewrite Forall_forall in Hrx; apply Hrx, nth_In; lia).
      rewrite Hc. destruct (Nat.eqb_spec (length x) n); [contradiction|]. specialize (H3 eq_refl).
      destruct x as [|a [|b x]]; try reflexivity. cbn [length] in H3. lia.
    - unfold vdot. destruct (Nat.eqb_spec (length lx) (length x)); [congruence|reflexivity].
  Qed.

  Lemma map2_repeat_l {A B C} (f : A -> B -> C) a : forall v, map2 f (repeat a (length v)) v = map (f a) v.
  Proof. induction v as [|b v IH]; cbn; [reflexivity|f_equal; exact IH]. Qed.
  (** OCNLMS takes a single number for the constant vector *)
  Theorem C95_OCNLMS_number : forall n (o : obj) e a, reachable n o -> is_OCNLMS o = true ->
    learning_rule e [a] o = learning_rule e (repeat a n) o.
  Proof.
    intros n o e a Hr HO. pose proof (reachable_wf _ _ Hr) as Hwf. destruct (Nat.eq_dec n 1) as [->|Hn1]; [reflexivity|].
    unfold is_OCNLMS in HO. destruct (o_ext o) as [| | | | | | | | | | | eps mem em mx md idx | | | |] eqn:E; try discriminate.
    pose proof Hwf as (Hw & Hn & Hx). rewrite E in Hx. cbn [wf_ext] in Hx. destruct Hx as (Hm & Hlx & Hrx & Hld & Hi).
    assert (Hc : length (nth idx mx []) = n) by (unfold rowsl in Hrx; rewrite Forall_forall in Hrx; apply Hrx, nth_In; lia).
    assert (U : update_memory_x [a] o = (set_ext (XOCNLMS eps mem em (set_nth idx (repeat a n) mx) md idx) o, Ok tt)).
    { unfold update_memory_x, bind, get, ret, raise, modify. rewrite E.
      replace (idx <? length mx) with true by (symmetry; apply Nat.ltb_lt; lia). rewrite Hc. cbn [length].
      destruct (Nat.eqb_spec 1 n); [congruence|]. reflexivity. }
    assert (U2 : update_memory_x (repeat a n) o = (set_ext (XOCNLMS eps mem em (set_nth idx (repeat a n) mx) md idx) o, Ok tt)).
    { unfold update_memory_x, bind, get, ret, raise, modify. rewrite E.
      replace (idx <? length mx) with true by (symmetry; apply Nat.ltb_lt; lia). rewrite Hc, repeat_length, Nat.eqb_refl. reflexivity. }
    set (o1 := set_ext (XOCNLMS eps mem em (set_nth idx (repeat a n) mx) md idx) o) in *.
    assert (W1 : wf n o1).
    { unfold o1. split; [exact Hw|]. split; [exact Hn|]. cbn [o_ext set_ext wf_ext]. split; [exact Hm|]. split; [rewrite set_nth_length; exact Hlx|].
      split; [|auto]. apply set_nth_Forall; [exact Hrx|apply repeat_length]. }
    destruct (read_memory_ok n o1 _ _ _ _ _ _ W1 eq_refl) as (m_d & m_x & em' & idx' & Hrm & Hlm & _).
    unfold learning_rule, bind, get. rewrite E, U, U2, Hrm.
    assert (EB : bc_sub [a] m_x = bc_sub (repeat a n) m_x).
    { unfold bc_sub, bc. rewrite repeat_length, Hlm, Nat.eqb_refl. cbn [length]. destruct (Nat.eqb_spec 1 n); [congruence|].
      f_equal. rewrite <- Hlm. symmetry. apply map2_repeat_l. }
    rewrite EB. reflexivity.
  Qed.

  (** ** VSLMS-Ang and VSLMS-Benveniste accept it and are dead from then on *)
  Definition jammed (o : obj) : Prop :=
    match o_ext o with
    | XAng _ _ _ lx lf _ => length lx <> length lf /\ length lf <> 1
    | XBenveniste _ _ lx lf _ => length lx <> length lf
    | _ => False
    end.
  Lemma bc_cases {A B C} (f : A -> B -> C) u v :
    (exists r, bc f u v = Ok r /\ (length u = length v /\ length r = length v \/ length u = 1 /\ length r = length v \/ length v = 1 /\ length r = length u)) \/
    (bc f u v = Err ValueError /\ length u <> length v /\ length u <> 1 /\ length v <> 1).
  Proof.
    unfold bc. destruct (Nat.eqb_spec (length u) (length v)) as [H|H].
    - left. eexists. split; [reflexivity|]. left. split; [exact H|]. rewrite map2_length. lia.
    - destruct u as [|a [|b u]].
      + destruct v as [|c [|d v]]; [cbn in H; lia| |].
        * left. eexists. split; [reflexivity|]. right; right. split; reflexivity.
        * right. cbn [length] in *. repeat split; lia.
      + left. eexists. split; [reflexivity|]. right; left. rewrite map_length. split; reflexivity.
      + destruct v as [|c [|d v]].
        * right. cbn [length] in *. repeat split; lia.
        * left. eexists. split; [reflexivity|]. right; right. rewrite map_length. split; reflexivity.
        * right. cbn [length] in *. repeat split; lia.
  Qed.
  Lemma sequence_cases {A} (l : list (result A)) : Forall (fun r => match r with Ok _ => True | Err ex => ex = ValueError end) l ->
    (exists r, sequence l = Ok r /\ length r = length l) \/ sequence l = Err ValueError.
  Proof.
    induction 1 as [|r l Hr Hl IH]; cbn [sequence]; [left; exists []; auto|]. destruct r as [a|ex]; cbn [rbind]; [|right; subst ex; reflexivity].
    destruct IH as [(r & -> & L)| ->]; cbn [rmap]; [left; eexists; split; [reflexivity|cbn; lia]|right; reflexivity].
  Qed.
  Lemma bc_Forall {A B C} (f : A -> B -> C) (P : C -> Prop) u v r : bc f u v = Ok r -> (forall a b, P (f a b)) -> Forall P r.
  Proof.
    unfold bc. intros H HP. destruct (length u =? length v).
    - injection H as <-. revert v. induction u as [|a u IH]; intros [|b v]; cbn; auto.
    - assert (HM : forall X (g : X -> C) l, (forall z, P (g z)) -> Forall P (map g l)) by (intros X g l Hg; induction l; cbn; auto).
      destruct u as [|a [|a' u]]; destruct v as [|b [|b' v]]; try discriminate; injection H as <-; repeat (constructor; auto); auto.
  Qed.
  Lemma bc_sub_err (u v : vec) : match bc_sub u v with Ok _ => True | Err ex => ex = ValueError end.
  Proof. unfold bc_sub. destruct (bc_cases nsub u v) as [(r & -> & _)|(-> & _)]; auto. Qed.
  Lemma bc_sub2_cases (A B : mat) :
    (exists F, bc_sub2 A B = Ok F /\ (length F = length B \/ length B = 1 /\ length F = length A)) \/ bc_sub2 A B = Err ValueError.
  Proof.
    unfold bc_sub2. destruct (bc_cases (fun ra rb => bc_sub ra rb) A B) as [(r & E & Hc)|(-> & _)]; [|right; reflexivity].
    rewrite E. cbn [rbind].
    destruct (sequence_cases r) as [(F & -> & L)| ->]; [eapply bc_Forall; [exact E|intros; apply bc_sub_err]| |right; reflexivity].
    left. exists F. split; [reflexivity|]. destruct Hc as [(H1 & H2)|[(H1 & H2)|(H1 & H2)]]; [left|left|right]; try split; congruence.
  Qed.
  Lemma vdot_bad (u v : vec) : length u <> length v -> vdot u v = Err ValueError.
  Proof. intros H. unfold vdot. destruct (Nat.eqb_spec (length u) (length v)); [contradiction|reflexivity]. Qed.

  Lemma jammed_rule o : jammed o -> forall e x, learning_rule e x o = (o, Err ValueError).
  Proof.
    intros HJ e x. unfold jammed in HJ. unfold learning_rule, bind, get, lift.
    destruct (o_ext o) as [| | | | | | | | | | | | ro a le lx lf lm | ro le lx lf lm | |] eqn:E; try contradiction.
    - destruct HJ as (H1 & H2). unfold bc_add.
      destruct (bc_cases nadd (vscale a lf) (vscale le lx)) as [(fi & -> & Hc)|(-> & _)]; [|reflexivity].
      rewrite !vscale_length in Hc. rewrite vdot_bad; [reflexivity|]. destruct Hc as [(C1 & C2)|[(C1 & C2)|(C1 & C2)]]; congruence.
    - destruct (bc_sub2_cases (identity (o_n o)) (mscale lm (outer lx lx))) as [(F & -> & Hc)| ->]; [|reflexivity].
      rewrite mscale_length, outer_length, identity_length in Hc. unfold sqdot.
      destruct (Nat.eqb_spec (length F) (length lf)) as [HF|HF]; [|reflexivity].
      unfold mvdot. destruct (forallb _ F); [|reflexivity]. unfold bc_add.
      destruct Hc as [Hc|(Hk & Hc)]; [congruence|].
      destruct (bc_cases nadd (mv F lf) (vscale le lx)) as [(fi & -> & Hd)|(-> & _)]; [|reflexivity].
      rewrite mv_length, vscale_length in Hd. rewrite vdot_bad; [reflexivity|]. destruct Hd as [(D1 & D2)|[(D1 & D2)|(D1 & D2)]]; congruence.
  Qed.

  Lemma jammed_not o : jammed o -> is_AP o = false /\ is_OCNLMS o = false.
  Proof. unfold jammed, is_AP, is_OCNLMS. destruct (o_ext o); intros H; try contradiction; auto. Qed.
  Lemma jammed_ext o o' : o_ext o' = o_ext o -> jammed o -> jammed o'.
  Proof. unfold jammed. intros ->. auto. Qed.
  Lemma vdot_err (u v : vec) ex : vdot u v = Err ex -> ex = ValueError.
  Proof. unfold vdot. destruct (length u =? length v); congruence. Qed.
  Lemma jammed_adapt o : jammed o -> forall d x, adapt d x o = (o, Err ValueError).
  Proof.
    intros HJ d x. destruct (jammed_not o HJ) as (HA & HO). unfold adapt, bind at 1, get. rewrite HA. unfold adapt_base, bind. rewrite predict_plain by exact HO.
    destruct (vdot (o_w o) x) as [y|ex] eqn:Ev; [|apply vdot_err in Ev; subst ex; reflexivity]. rewrite jammed_rule by exact HJ. reflexivity.
  Qed.
  Lemma jammed_body o k d x : jammed o -> exists o' ex, run_body k d x o = (o', Err ex) /\ o_ext o' = o_ext o /\ o_w o' = o_w o.
  Proof.
    intros HJ. destruct (jammed_not o HJ) as (HA & HO). unfold run_body, bind at 1, get. rewrite HA. unfold run_body_base.
    assert (HH : exists o1 r, hist_set k o = (o1, r) /\ o_ext o1 = o_ext o /\ o_w o1 = o_w o).
    { unfold hist_set, bind, get, raise, ret, modify. destruct (o_hist o) as [h|]; [|eauto].
      destruct (length (o_w o) =? o_n o); [do 2 eexists; split; [reflexivity|split; reflexivity]|].
      destruct (o_w o) as [|a [|b w]] eqn:Ew; do 2 eexists; (split; [reflexivity|split; [reflexivity|cbn; rewrite ?Ew; auto]]). }
    destruct HH as (o1 & r & EH & E1 & W1). unfold bind at 1. rewrite EH. destruct r as [[]|ex]; [|eauto 6].
    assert (HJ1 : jammed o1) by (eapply jammed_ext; eauto). destruct (jammed_not o1 HJ1) as (HA1 & HO1).
    unfold bind at 1. rewrite predict_plain by exact HO1. destruct (vdot (o_w o1) x) as [y|ex]; [|eauto 6].
    unfold bind at 1. rewrite jammed_rule by exact HJ1. eauto 6.
  Qed.
  Lemma jammed_run1 o d xs : jammed o -> exists o' ex, run d xs o = (o', Err ex) /\ o_ext o' = o_ext o /\ o_w o' = o_w o.
  Proof.
    intros HJ. unfold run, raise. destruct (Nat.eqb_spec (length d) (length xs)) as [Hl|Hl]; cbn [negb]; [|eauto].
    destruct xs as [|x0 xs]; [eauto|]. unfold bind at 1, modify at 1. destruct (rect (length x0) (x0 :: xs)); cbn [negb]; [|do 2 eexists; split; [reflexivity|split; reflexivity]].
    unfold bind at 1, modify at 1. set (o1 := set_hist _ _). destruct d as [|d0 d]; [discriminate Hl|].
    unfold bind at 1. cbn [run_loop]. unfold bind at 1.
    destruct (jammed_body o1 0 d0 x0) as (o2 & ex & -> & E2 & W2); [eapply jammed_ext; [|exact HJ]; reflexivity|].
    do 2 eexists. split; [reflexivity|]. split; [exact E2|exact W2].
  Qed.
  Lemma jammed_run o d xs : jammed o -> (exists ex, snd (run d xs o) = Err ex) /\ o_ext (fst (run d xs o)) = o_ext o /\ o_w (fst (run d xs o)) = o_w o.
  Proof. intros HJ. destruct (jammed_run1 o d xs HJ) as (o' & ex & -> & H). cbn [fst snd]. eauto. Qed.
  Lemma jammed_dead o : jammed o -> dead o.
  Proof.
    intros HJ. split; [apply jammed_rule; exact HJ|]. split; [apply jammed_adapt; exact HJ|]. split.
    - intros d xs y e w H. destruct (jammed_run o d xs HJ) as ((ex & E) & _). congruence.
    - intros d xs nt ep y e w. unfold pretrained_run, bind at 1.
      set (m := bind (run _ _) (fun _ => ret tt)).
      assert (HM : jammed (fst (repeat_m ep m o))).
      { destruct ep as [|ep]; [exact HJ|]. cbn [repeat_m]. unfold bind at 1, m at 1, bind at 1.
        match goal with |- context [run ?a ?b o] => destruct (jammed_run o a b HJ) as ((ex & E) & Ee & _); destruct (run a b o) as [o1 r] end.
        cbn [fst snd] in *. subst r. cbn [fst]. eapply jammed_ext; eauto. }
      destruct (repeat_m ep m o) as [o1 [[]|ex]]; cbn [fst snd] in *; [|discriminate].
      match goal with |- snd (run ?a ?b o1) <> _ => destruct (jammed_run o1 a b HM) as ((ex & E) & _); congruence end.
  Qed.

  Theorem C95_one_wrong_call_kills : forall n (o : obj) e (x : vec), reachable n o -> length x <> n ->
    is_Ben o = true \/ is_Ang o = true /\ n <> 1 ->
    exists o1 dw, learning_rule e x o = (o1, Ok dw) /\ length dw = length x /\ o_w o1 = o_w o /\ dead o1 /\
      (forall y, snd (predict y o1) = snd (predict y o)).
  Proof.
    intros n o e x Hr Hl HC. pose proof (reachable_wf _ _ Hr) as (Hw & Hn & Hx).
    assert (Hcls : is_Ben o = true \/ is_Ang o = true) by tauto.
    unfold is_Ben, is_Ang in Hcls. destruct (o_ext o) as [| | | | | | | | | | | | ro a le lx lf lm | ro le lx lf lm | |] eqn:E;
      try (destruct Hcls; discriminate); cbn [wf_ext] in Hx; destruct Hx as (H1 & H2).
    - unfold learning_rule, bind, get, lift, modify, ret. rewrite E. unfold bc_add. rewrite bc_eq by (rewrite !vscale_length; congruence).
      rewrite vdot_ok by (rewrite map2_length, !vscale_length; lia). cbv zeta. do 2 eexists. split; [reflexivity|]. rewrite vscale_length. split; [reflexivity|].
      split; [reflexivity|]. split; [apply jammed_dead|].
      + cbn [jammed o_ext set_ext]. rewrite map2_length, !vscale_length. unfold is_Ben, is_Ang in HC. rewrite E in HC. destruct HC as [HC|(_ & HC)]; [discriminate|].
        replace (Nat.min (length lf) (length lx)) with n by lia. auto.
      + intros y. unfold predict, bind, get. cbn [o_ext set_ext]. rewrite E. reflexivity.
    - assert (HrO : rowsl n (mscale lm (outer lx lx))) by (apply mscale_rows; pose proof (outer_rows lx lx) as Ho; rewrite H1 in Ho; exact Ho).
      unfold learning_rule, bind, get, lift, modify, ret. rewrite E, Hn.
      rewrite (bc_sub2_ok _ _ n); auto using identity_rows.
      2:{ rewrite identity_length, mscale_length, outer_length; congruence. }
      assert (HlF : length (map2 (map2 nsub) (identity n) (mscale lm (outer lx lx))) = n).
      { apply map2_length_eq; [apply identity_length|]. rewrite mscale_length, outer_length; auto. }
      rewrite sqdot_ok by (rewrite H2; first [exact HlF | apply map2_rows; auto using identity_rows]).
      unfold bc_add. rewrite bc_eq by (rewrite mv_length, vscale_length; congruence).
      rewrite vdot_ok by (rewrite map2_length, mv_length, vscale_length; lia). cbv zeta.
      do 2 eexists. split; [reflexivity|]. rewrite vscale_length. split; [reflexivity|]. split; [reflexivity|]. split; [apply jammed_dead|].
      + cbn [jammed o_ext set_ext]. rewrite map2_length, mv_length, vscale_length. lia.
      + intros y. unfold predict, bind, get. cbn [o_ext set_ext]. rewrite E. reflexivity.
  Qed.

  (** VSLMS-Ang with one weight: the next correct call still works, and kills it *)
  Theorem C95_Ang_one_weight : forall (o : obj) e (x : vec), reachable 1 o -> length x <> 1 -> is_Ang o = true ->
    exists o1 dw, learning_rule e x o = (o1, Ok dw) /\ length dw = length x /\ o_w o1 = o_w o /\
      forall e' a, exists o2 b, learning_rule e' [a] o1 = (o2, Ok [b]) /\ o_w o2 = o_w o /\ dead o2.
  Proof.
    intros o e x Hr Hl HC. pose proof (reachable_wf _ _ Hr) as (Hw & Hn & Hx).
    unfold is_Ang in HC. destruct (o_ext o) as [| | | | | | | | | | | | ro a le lx lf lm | | |] eqn:E; try discriminate. cbn [wf_ext] in Hx. destruct Hx as (H1 & H2).
    unfold learning_rule at 1, bind, get, lift, modify, ret. rewrite E. unfold bc_add. rewrite bc_eq by (rewrite !vscale_length; congruence).
    rewrite vdot_ok by (rewrite map2_length, !vscale_length; lia). cbv zeta. do 2 eexists. split; [reflexivity|]. rewrite vscale_length. split; [reflexivity|].
    split; [reflexivity|]. intros e' b. set (fi := map2 nadd (vscale a lf) (vscale le lx)).
    assert (Lf : length fi = 1) by (unfold fi; rewrite map2_length, !vscale_length; lia).
    unfold learning_rule, bind, get, lift, modify, ret. cbn [o_ext set_ext]. unfold bc_add.
    destruct (bc_cases nadd (vscale a fi) (vscale e x)) as [(g & -> & Hc)|(_ & _ & HF & _)]; [|rewrite vscale_length in HF; contradiction].
    rewrite !vscale_length, Lf in Hc. assert (Lg : length g = length x) by (destruct Hc as [(C1 & C2)|[(C1 & C2)|(C1 & C2)]]; congruence).
    rewrite vdot_ok by congruence. cbv zeta. do 2 eexists. split; [reflexivity|]. split; [reflexivity|]. apply jammed_dead.
    cbn [jammed o_ext set_ext length]. lia.
  Qed.

  (** ** the user's own loop  f.w += f.learning_rule(e, x) *)
  Theorem C95_own_loop : forall n (o : obj) e (x : vec), reachable n o -> memoryless o = true ->
    (length x <> n -> length x <> 1 -> own_step e x o = (o, Err ValueError)) /\
    (forall a b, x = [a] -> snd (learning_rule e [a] o) = Ok [b] -> own_step e x o = (set_w (map (fun wi => nadd wi b) (o_w o)) o, Ok tt)).
  Proof.
    intros n o e x Hr HM. pose proof (reachable_wf _ _ Hr) as (Hw & _). destruct (C95_memoryless e x o HM) as (dw & E & L). unfold own_step, bind. rewrite E. split.
    - intros H1 H2. unfold iadd_w, bind, get, raise. destruct (Nat.eqb_spec (length dw) (length (o_w o))); [congruence|].
      destruct dw as [|a [|b dw]]; try reflexivity. cbn [length] in L. congruence.
    - intros a b -> Eb. rewrite E in Eb. cbn [snd] in Eb. injection Eb as ->. unfold iadd_w, bind, get, modify.
      destruct (Nat.eqb_spec (length [b]) (length (o_w o))) as [H|H]; [|reflexivity].
      destruct (o_w o) as [|w0 [|w1 w]]; try discriminate H. reflexivity.
  Qed.
  (** for LMS and a single number a: every weight moves by mu * a * e *)
  Theorem C95_own_loop_LMS : forall n (o : obj) e a, reachable n o -> o_ext o = XLMS ->
    own_step e [a] o = (set_w (map (fun wi => nadd wi (nmul (nmul (o_mu o) a) e)) (o_w o)) o, Ok tt).
  Proof.
    intros n o e a Hr E. assert (HM : memoryless o = true) by (unfold memoryless; rewrite E; reflexivity).
    destruct (C95_own_loop n o e [a] Hr HM) as (_ & H). apply (H a); [reflexivity|].
    unfold learning_rule, bind, get, ret. rewrite E. reflexivity.
  Qed.
End Props.

(** the hypotheses are met, and one call with a single number kills a VSLMS-Ang filter with two weights: exact rationals *)
Example C95_hypotheses :
  let kw := mkKw (Some 2%Z) (Some (1 # 2)%Q) (Some (WVec [3; 4]%Q)) None None None None None None None None false in
  forall k, In k [KLMS; KAng; KBenveniste; KOCNLMS; KRLS; KGNGD; KMathews] -> exists o : obj Q, new_filter rng0 k kw = Ok o /\ reachable 2 o.
Proof.
  cbv zeta. intros k Hk.
  assert (H : exists o : obj Q, new_filter rng0 k (mkKw (Some 2%Z) (Some (1 # 2)%Q) (Some (WVec [3; 4]%Q)) None None None None None None None None false) = Ok o).
  { cbn [In] in Hk. repeat (destruct Hk as [<-|Hk]; [eexists; vm_compute; reflexivity|]). contradiction. }
  destruct H as (o & H). exists o. split; [exact H|]. eapply reach_new; [exact rng0_ok| | |exact H]; [|reflexivity].
  split; cbn; discriminate.
Qed.
Example C95_concrete :
  let kw := mkKw (Some 2%Z) (Some (1 # 2)%Q) (Some (WVec [3; 4]%Q)) None None None None None None None None false in
  exists o : obj Q, new_filter rng0 KAng kw = Ok o /\ is_Ang o = true /\
    snd (learning_rule 1%Q [1]%Q o) = Ok [1 # 2]%Q /\ snd (adapt 1%Q [1; 2]%Q o) = Ok tt /\
    snd (adapt 1%Q [1; 2]%Q (fst (learning_rule 1%Q [1]%Q o))) = Err ValueError /\
    snd (predict [1; 2]%Q (fst (learning_rule 1%Q [1]%Q o))) = Ok 11%Q.
Proof. cbv zeta. eexists. split; [vm_compute; reflexivity|]. repeat split; vm_compute; reflexivity. Qed.
Example C95_concrete_LMS :
  let kw := mkKw (Some 2%Z) (Some (1 # 2)%Q) (Some (WVec [3; 4]%Q)) None None None None None None None None false in
  exists o : obj Q, new_filter rng0 KLMS kw = Ok o /\ o_ext o = XLMS /\ memoryless o = true /\
    o_w (fst (own_step 1%Q [2]%Q o)) = [4; 5]%Q /\ snd (own_step 1%Q [2; 3; 4]%Q o) = Err ValueError.
Proof. cbv zeta. eexists. split; [vm_compute; reflexivity|]. repeat split; vm_compute; reflexivity. Qed.
