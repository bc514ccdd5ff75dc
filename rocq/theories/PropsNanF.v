(** Property C60 for IEEE binary64: nan is absorbing, so the theorems of PropsNan.v apply to it. *)
From Coq Require Import QArith Uint63 PrimFloat FloatOps FloatAxioms SpecFloat.
From Verif Require Import Py Num NumF Numpy Filters Registry Spec StructProofs RunProofs Reach Steps PropsOCNLMSF PropsNan.
Open Scope nat_scope.

Lemma sub_nan_l x : (nan - x)%float = nan.
Proof. apply is_nan_SF. rewrite sub_spec, nan_SF. destruct (Prim2SF x); reflexivity. Qed.

Section F.
  Variable solve : list (list float) -> list (list float) -> option (list (list float)).
  #[local] Hint Extern 0 (Num float) => exact (FNum solve) : typeclass_instances.
  Notation obj := (obj float).

  Lemma fold_nan l : fold_left PrimFloat.add l nan = nan.
  Proof. induction l as [|a l IH]; [reflexivity|]. cbn [fold_left]. rewrite add_nan_l. exact IH. Qed.
  Lemma fold_nan_in l : forall a, In nan l -> fold_left PrimFloat.add l a = nan.
  Proof.
    induction l as [|b l IH]; intros a H; [destruct H|]. destruct H as [H|H]; cbn [fold_left].
    - rewrite H, add_nan_r. apply fold_nan.
    - apply IH, H.
  Qed.
  Lemma prod_nan_in : forall u v, length u = length v -> In nan u \/ In nan v -> In nan (map2 PrimFloat.mul u v).
  Proof.
    induction u as [|a u IH]; intros [|b v] Hl H; try discriminate; [destruct H as [H|H]; exact H|].
    cbn [map2]. cbn [length] in Hl. destruct H as [[H|H]|[H|H]]; try rewrite H.
    - left. apply mul_nan_l.
    - right. apply IH; [lia|left; exact H].
    - left. apply mul_nan_r.
    - right. apply IH; [lia|right; exact H].
  Qed.

  Theorem C60_nan_is_absorbing : absorbing (NT := FNum solve) nan.
  Proof.
    split; try (intros a; first [apply add_nan_l|apply add_nan_r|apply sub_nan_l|apply sub_nan_r|apply mul_nan_l|apply mul_nan_r]).
    - vm_compute; reflexivity.
    - reflexivity.
    - vm_compute; reflexivity.
    - intros u v Hl H. apply fold_nan_in. apply prod_nan_in; assumption.
  Qed.
End F.

(** a solver on 1 x 1 systems *)
Definition fsolve (A B : list (list float)) : option (list (list float)) :=
  match A, B with [[a]], [[b]] => Some [[(b / a)%float]] | _, _ => None end.
#[local] Hint Extern 0 (Num float) => exact (FNum fsolve) : typeclass_instances.

Example fsolve_shapes : solver_shapes (NT := FNum fsolve).
Proof.
  intros k A B X HA HrA HB HrB H. change (fsolve A B = Some X) in H. unfold fsolve in H.
  destruct A as [|[|a []] []]; try discriminate. destruct B as [|[|b []] []]; try discriminate. injection H as <-.
  cbn in HA. subst k. split; [reflexivity|]. constructor; [reflexivity|constructor].
Qed.

(** an NLMS filter of two weights; the second of four targets is nan: the outputs before are numbers, those after are not *)
Definition nanF_kw : kwargs float :=
  mkKw (Some 2%Z) (Some one) (Some (WStr "zeros")) (Some one) None None None None None None None false.
Definition nanF : obj float := mkObj [zero; zero] 2 one None (XNLMS one).
Example C60_hypotheses :
  new_filter (fun k => repeat zero k) KNLMS nanF_kw = Ok nanF /\ is_base nanF = false /\
  exists o' w, run [one; nan; one; two] [[one; two]; [two; one]; [one; one]; [one; zero]] nanF =
    (o', Ok ([zero; (4 / 6)%float; nan; nan], [one; nan; nan; nan], w)) /\ o_w o' = [nan; nan] /\ nth 1 w [] <> [nan; nan].
Proof.
  split; [vm_compute; reflexivity|]. split; [reflexivity|]. eexists _, _. split; [vm_compute; reflexivity|].
  split; [vm_compute; reflexivity|]. vm_compute. intros H. injection H as H _.
  apply (f_equal (fun a => PrimFloat.eqb a a)) in H. vm_compute in H. discriminate.
Qed.
