(** Induction over call histories: the samples and predictions a filter has seen, in order (any arithmetic). *)
From Coq Require Import QArith.
From Verif Require Import Py Num Numpy Filters Registry Spec StructProofs RunProofs Reach Steps PropsAPMem.
Open Scope nat_scope.

Section H.
  Context {T : Type} {NT : Num T}.
  Notation vec := (list T).
  Notation mat := (list (list T)).
  Notation obj := (obj T).

  (** ** Specification *)
  (** what happened to a filter: it was asked for a prediction, or it was given a sample to learn from *)
  (* specification: the calls of base_filter.py:101,116,154,168 in order *)
  Inductive event : Type := Predicted (x : vec) | Learned (d : T) (x : vec).
  (* specification: the calls of base_filter.py:101,116,154,168 in order *)
  Definition learned (p : T * vec) : event := Learned (fst p) (snd p).
  (* specification: the calls of base_filter.py:101,116,154,168 in order *)
  Definition events (p : op) (o : obj) : list event :=
    match p with
    | OpPredict x => [Predicted x]
    | _ => map learned (fed p o)
    end.
  (* specification: the calls of base_filter.py:101,116,154,168 in order *)
  Fixpoint events_all (ps : list op) (o : obj) : list event :=
    match ps with [] => [] | p :: ps' => events p o ++ events_all ps' (exec p o) end.

  (** ** Induction *)
  Variable n : nat.
  Variable Inv : list event -> obj -> Prop.
  Hypothesis Hhist : forall s o h, Inv s o -> Inv s (set_hist h o).
  Hypothesis Hlearn : forall s o d x, wf n o -> Inv s o -> length x = n -> Inv (s ++ [Learned d x]) (fst (adapt d x o)).
  Hypothesis Hpred : forall s o x, wf n o -> Inv s o -> length x = n -> Inv (s ++ [Predicted x]) (fst (predict x o)).

  Lemma hist_loop d : forall x s (o : obj), wf n o -> rowsl n x -> Inv s o ->
    Inv (s ++ map learned (fed_loop d x o)) (fst (adapt_all d x o)).
  Proof.
    induction d as [|d0 d IH]; intros x s o Hwf Hx HM; [simpl; rewrite app_nil_r; auto|].
    destruct x as [|x0 x]; [simpl; rewrite app_nil_r; auto|].
    pose proof (Forall_inv Hx) as Hx0. pose proof (Forall_inv_tail Hx) as Hx'. cbv beta in Hx0.
    cbn [fed_loop adapt_all map]. unfold bind.
    pose proof (Hlearn s o d0 x0 Hwf HM Hx0) as H1.
    destruct (adapt_ok n o d0 x0 Hwf Hx0) as (o1 & r1 & E1 & Hwf1 & _). rewrite E1 in H1 |- *. cbn [fst] in H1.
    destruct r1 as [[]|ex]; [|exact H1].
    change (learned (d0, x0) :: map learned (fed_loop d x o1)) with ([Learned d0 x0] ++ map learned (fed_loop d x o1)).
    rewrite app_assoc. apply IH; auto.
  Qed.

  Lemma hist_run s (o : obj) d x : wf n o -> rowsl n x -> Inv s o ->
    Inv (s ++ map learned (fed_run d x o)) (fst (run d x o)).
  Proof.
    intros Hwf Hx HM. unfold fed_run. destruct (Nat.eqb_spec (length d) (length x)) as [Hl|Hl].
    - destruct x as [|x0 x]; [destruct d; [simpl; rewrite app_nil_r; exact HM|discriminate]|].
      destruct (run_fst n o d (x0 :: x) Hwf Hx Hl) as (h & ->); [discriminate|]. apply Hhist.
      apply hist_loop; auto.
    - rewrite run_bad_length by assumption. rewrite app_nil_r. exact HM.
  Qed.

  Lemma hist_pretrained ep d1 x1 d2 x2 : rowsl n x1 -> rowsl n x2 -> forall s (o : obj), wf n o -> Inv s o ->
    Inv (s ++ map learned (fed_pretrained ep d1 x1 d2 x2 o))
      (fst (bind (repeat_m ep (bind (run d1 x1) (fun _ => ret tt))) (fun _ => run d2 x2) o)).
  Proof.
    intros H1 H2; induction ep as [|ep IH]; intros s o Hwf HM; cbn [fed_pretrained repeat_m].
    - unfold bind, ret. apply hist_run; auto.
    - pose proof (hist_run s o d1 x1 Hwf H1 HM) as HM1. pose proof (run_wf n d1 x1 o Hwf H1) as Hwf1.
      unfold bind in *. rewrite map_app. destruct (run d1 x1 o) as [o' [v|ex]]; cbn [fst] in *.
      + unfold ret at 1. cbv beta iota. rewrite app_assoc. apply IH; auto.
      + cbn [map]. rewrite app_nil_r. exact HM1.
  Qed.

  Lemma hist_exec s (o : obj) p : wf n o -> op_shape n p -> Inv s o -> Inv (s ++ events p o) (exec p o).
  Proof.
    intros Hwf Hs HM. destruct p as [x|d x|d x|d x nt ep]; cbn [events fed exec op_shape] in *.
    - apply Hpred; auto.
    - apply Hlearn; auto.
    - apply hist_run; auto.
    - apply hist_pretrained; auto; [apply firstn_rows|apply skipn_rows]; exact Hs.
  Qed.

  Lemma hist_exec_all ps : forall s (o : obj), wf n o -> Forall (op_shape n) ps -> Inv s o ->
    Inv (s ++ events_all ps o) (exec_all ps o) /\ wf n (exec_all ps o).
  Proof.
    induction ps as [|p ps IH]; intros s o Hwf HF HM; cbn [events_all exec_all fold_left].
    - rewrite app_nil_r; auto.
    - inversion HF as [|? ? Hp HF']; subst. rewrite app_assoc. apply IH; auto.
      + apply exec_wf; auto.
      + apply hist_exec; auto.
  Qed.
End H.
Arguments event T : clear implicits.
