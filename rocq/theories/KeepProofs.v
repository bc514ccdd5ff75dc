(** No call changes the class of a filter, whatever the shapes of its arguments. *)
From Coq Require Import QArith.
From Verif Require Import Py Num Numpy Filters Registry Spec StructProofs RunProofs.
Open Scope nat_scope.

Section S.
  Context {T : Type} {NT : Num T}.
  Notation vec := (list T).
  Notation mat := (list (list T)).
  Notation obj := (obj T).
  Notation ext := (ext T).

  Definition kp {A} (e : ext) (m : M obj A) : Prop :=
    forall s, kind_eq e (o_ext s) = true -> kind_eq e (o_ext (fst (m s))) = true.

  Lemma kp_bind {A B} e (m : M obj A) (f : A -> M obj B) :
    kp e m -> (forall a, kp e (f a)) -> kp e (bind m f).
  Proof.
    intros Hm Hf s Hs; unfold bind; specialize (Hm s Hs).
    destruct (m s) as [s' [a|x]]; simpl in *; auto. apply Hf; auto.
  Qed.
  Lemma kp_ret {A} e (a : A) : kp e (ret a).
  Proof. intros s Hs; exact Hs. Qed.
  Lemma kp_raise {A} e x : kp e (raise x : M obj A).
  Proof. intros s Hs; exact Hs. Qed.
  Lemma kp_lift {A} e (r : result A) : kp e (lift r).
  Proof. intros s Hs; exact Hs. Qed.
  Lemma kp_modify e f : (forall s, kind_eq e (o_ext s) = true -> kind_eq e (o_ext (f s)) = true) ->
    kp e (modify f).
  Proof. intros H s Hs; simpl; auto. Qed.
  Lemma kp_get {B} e (f : obj -> M obj B) :
    (forall o, kind_eq e (o_ext o) = true -> kp e (f o)) -> kp e (bind get f).
  Proof. intros Hf s Hs; unfold bind, get; apply Hf; auto. Qed.

  Ltac kpt := repeat
    match goal with
    | |- kp _ (ret _) => apply kp_ret
    | |- kp _ (raise _) => apply kp_raise
    | |- kp _ (lift _) => apply kp_lift
    | |- kp ?e (modify (set_ext _)) => apply kp_modify; intros ?s _; simpl;
         match goal with H : kind_eq e _ = true |- _ => destruct e; simpl in *; congruence end
    | |- kp _ (modify _) => apply kp_modify; intros ?s ?Hs; exact Hs
    | |- kp _ (bind get _) => apply kp_get; intros ?o ?Ho
    | |- kp _ (bind _ _) => apply kp_bind; [|intros ?a]
    | |- kp _ (match o_ext ?x with _ => _ end) => destruct (o_ext x) eqn:?
    | |- kp _ (match ?x with _ => _ end) => destruct x
    end.

  Lemma kp_read e : kp e read_memory.
  Proof.
    intros s; unfold read_memory, bind, get, ret, raise, modify.
    destruct (o_ext s) as [| | | | | | | | | | | eps mem em mx md idx | | | |] eqn:E;
      try (intros H; simpl; rewrite E; exact H).
    intros H. destruct em.
    - destruct (idx =? 0); simpl; destruct (length mx - 1 <? idx + 1); simpl;
        destruct e; simpl in *; congruence.
    - destruct (idx <? length md); simpl; try (rewrite E; exact H).
      destruct (length mx - 1 <? idx + 1); simpl; destruct e; simpl in *; congruence.
  Qed.
  Lemma kp_update_x e x : kp e (update_memory_x x).
  Proof. unfold update_memory_x; kpt. Qed.
  Lemma kp_update_d e d : kp e (update_memory_d d).
  Proof. unfold update_memory_d; kpt. Qed.
  Lemma kp_predict e x : kp e (predict x).
  Proof. unfold predict; kpt; apply kp_read. Qed.
  Lemma kp_learning_rule e er x : kp e (learning_rule er x).
  Proof.
    unfold learning_rule; kpt; first [apply kp_read | apply kp_update_x | apply kp_update_d]. Qed.
  Lemma kp_iadd_w e dw : kp e (iadd_w dw).
  Proof. unfold iadd_w; kpt. Qed.
  Lemma kp_hist_set e k : kp e (hist_set k).
  Proof. unfold hist_set; kpt. Qed.
  Lemma kp_push_x e x : kp e (ap_push_x x).
  Proof. unfold ap_push_x; kpt. Qed.
  Lemma kp_push_d e x : kp e (ap_push_d x).
  Proof. unfold ap_push_d; kpt. Qed.
  Lemma kp_estimate e : kp e ap_estimate.
  Proof. unfold ap_estimate; kpt. Qed.
  Ltac kpa := first [apply kp_read | apply kp_predict | apply kp_learning_rule | apply kp_iadd_w
     | apply kp_hist_set | apply kp_push_x | apply kp_push_d | apply kp_estimate].
  Lemma kp_adapt e d x : kp e (adapt d x).
  Proof. unfold adapt, adapt_AP, adapt_base; kpt; kpa. Qed.
  Lemma kp_run_body e k d x : kp e (run_body k d x).
  Proof. unfold run_body, run_body_AP, run_body_base; kpt; kpa. Qed.
  Lemma kp_run_loop e k ds xs : kp e (run_loop k ds xs).
  Proof.
    revert k xs; induction ds as [|d ds IH]; intros k [|x xs]; cbn [run_loop]; kpt;
      auto using kp_run_body.
  Qed.
  Lemma kp_run e d x : kp e (run d x).
  Proof. unfold run; kpt; apply kp_run_loop. Qed.
  Lemma kp_repeat e k m : kp e m -> kp e (repeat_m k m).
  Proof. intros Hm; induction k as [|k IH]; cbn [repeat_m]; kpt; auto. Qed.
  Lemma kp_pretrained e d x nt ep : kp e (pretrained_run d x nt ep).
  Proof. unfold pretrained_run; kpt; [apply kp_repeat; kpt|]; apply kp_run. Qed.

  Lemma exec_kind p (o : obj) : kind_eq (o_ext o) (o_ext (exec p o)) = true.
  Proof.
    pose proof (kind_eq_refl (o_ext o)) as H0.
    destruct p as [x|d x|d x|d x nt ep]; simpl.
    - apply kp_predict, H0.
    - apply kp_adapt, H0.
    - apply kp_run, H0.
    - apply kp_pretrained, H0.
  Qed.

  Lemma exec_OCNLMS p (o : obj) : is_OCNLMS (exec p o) = is_OCNLMS o.
  Proof.
    pose proof (exec_kind p o) as H; unfold is_OCNLMS.
    destruct (o_ext o), (o_ext (exec p o)); simpl in H; try discriminate; reflexivity.
  Qed.
End S.
