(** C80 and C81 for IEEE binary64: nan is passed on, and concrete networks. *)
From Coq Require Import QArith Uint63 PrimFloat FloatOps FloatAxioms SpecFloat Permutation.
From Verif Require Import Py Num NumF Numpy Spec StructProofs PropsOCNLMSF PropsNanF PropsSignF Mlp MlpUnknown PropsMLP PropsNanMLP PropsMLPName.
Open Scope nat_scope.

Lemma opp_nan : (- nan)%float = nan.
Proof. apply is_nan_SF. rewrite opp_spec, nan_SF. reflexivity. Qed.
Lemma div_nan_r x : (x / nan)%float = nan.
Proof. apply is_nan_SF. rewrite div_spec, nan_SF. destruct (Prim2SF x); reflexivity. Qed.

(** binary64 with any exp that maps nan to nan *)
Theorem C80_nan_is_passed_on : forall solve tanh exp power, exp nan = nan -> passed_on (NT := FNumX solve tanh exp power) nan.
Proof.
  intros solve tanh exp power He. split; try (intros a; first [apply add_nan_l|apply add_nan_r|apply sub_nan_l|apply sub_nan_r|apply mul_nan_l|apply mul_nan_r|apply div_nan_r]).
  - apply opp_nan.
  - exact He.
  - intros u H. apply fold_nan_in, H.
  - intros u v Hl H. apply fold_nan_in, prod_nan_in; assumption.
Qed.

(** a network 2 - 2 - 1 - 1 of tanh-like units with all weights 1/10 (exp replaced by 1 + a, which is enough here) *)
Definition nx : Num float := FNumX sgnF (fun a => a) (fun a => (1 + a)%float) (fun a _ => a).
Definition nrng1 (s : float) (k : nat) : list float := repeat tenth k.
Definition nrng (i : nat) (s : float) (r c : nat) : list (list float) := repeat (repeat tenth c) r.
Lemma nrngs : rngs_ok nrng1 nrng.
Proof.
  split; [intros; apply repeat_length|]. intros. split; [apply repeat_length|]. apply Forall_forall. intros row H. apply repeat_spec in H. subst. apply repeat_length.
Qed.
Definition nnet : net float :=
  match @new_net _ nx nrng1 nrng [2; 1] 2 1 Sigmoid (MuNum tenth) with Ok n => n | Err _ => mkNet tenth 0 0 (W1 []) [] (VNum tenth) [] end.
Lemma nnet_new : @new_net _ nx nrng1 nrng [2; 1] 2 1 Sigmoid (MuNum tenth) = Ok nnet.
Proof. vm_compute. reflexivity. Qed.

Definition is_finite_out (v : Mlp.val float) : bool := match v with VNum a => (a =? a)%float | VArr l => forallb (fun a => (a =? a)%float) l end.
Example C80_hypotheses :
  passed_on (NT := nx) nan /\ @net_reach _ nx [2; 1] 2 1 nnet /\
  (* the network works *)
  (exists y, snd (@net_predict _ nx [one; tenth] nnet) = Ok y /\ is_finite_out y = true) /\
  (* and one nan among three targets destroys it *)
  let x := [[one; tenth]; [tenth; one]; [one; one]] in let d := D1 [one; nan; tenth] in
  @fits _ 1 (length x) d [VNum one; VNum nan; VNum tenth] /\ @rows_of float 2 x /\
  lost nan (fst (@net_train _ nx x d 2 None nnet)) /\
  snd (@net_predict _ nx [one; tenth] (fst (@net_train _ nx x d 2 None nnet))) = Ok (VNum nan).
Proof.
  assert (HP : passed_on (NT := nx) nan) by (apply C80_nan_is_passed_on; vm_compute; reflexivity).
  assert (HR : @net_reach _ nx [2; 1] 2 1 nnet) by (eapply reach_net; [apply nrngs|apply nnet_new]).
  split; [exact HP|]. split; [exact HR|]. split; [eexists; split; vm_compute; reflexivity|]. cbv zeta.
  assert (HF : @fits _ 1 3 (D1 [one; nan; tenth]) [VNum one; VNum nan; VNum tenth]) by (repeat split; reflexivity).
  assert (HX : @rows_of float 2 [[one; tenth]; [tenth; one]; [one; one]]) by (repeat constructor).
  split; [exact HF|]. split; [exact HX|].
  destruct (C80_train nan HP [2; 1] 2 1 nnet _ _ _ 2 None HR ltac:(lia) HX HF ltac:(lia) ltac:(discriminate)) as (n' & e & mse & E & L).
  { exists 1. split; [cbn; lia|]. right. left. reflexivity. }
  rewrite E. split; [exact L|]. apply (f_equal fst) in E. cbn [fst] in *. rewrite <- E. vm_compute. reflexivity.
Qed.

Example C81_hypotheses :
  passed_on (NT := nx) nan /\ @unknown_net _ nx nan [2; 1] 2 1 nnet /\
  (* all weights are finite, the answer is nan, update raises and the output weights are gone *)
  snd (@net_predict_u _ nx nan [one; tenth] nnet) = Ok (VNum nan) /\
  snd (@net_update_u _ nx (VNum one) (fst (@net_predict_u _ nx nan [one; tenth] nnet))) = Err TypeError /\
  m_w (fst (@net_update_u _ nx (VNum one) (fst (@net_predict_u _ nx nan [one; tenth] nnet)))) = W1 [nan; nan] /\ m_w nnet = W1 [tenth; tenth].
Proof.
  split; [apply C80_nan_is_passed_on; vm_compute; reflexivity|]. split; [eapply un_new; [apply nrngs|apply nnet_new]|].
  repeat split; vm_compute; reflexivity.
Qed.
