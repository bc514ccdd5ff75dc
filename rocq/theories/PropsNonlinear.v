(** Negative parts of C30 and C51, one witness for every class they mention.
    C51: none of the classes outside {LMS, NLMS, RLS, AP, OCNLMS} superposes: already the same filter with zero
    initial weights, run on twice the target series, does not return twice the outputs.
    C30: NSSLMS (like SSLMS) depends on the choice of axes. *)
From Coq Require Import Reals Lra Psatz.
From Verif Require Import Py Num NumQ Numpy Filters Registry Spec StructProofs RunProofs Reach KeepProofs RVec RFilter Steps
  RMat PropsStability PropsAlgebra PropsRLS PropsSymmetry.
From Coq Require Import QArith.
From Verif Require PropsRun.

(** *** The classes without exp and tanh, over the rationals *)
Section WitnessQ.
Import PropsRun.
Open Scope nat_scope.
Theorem C51_others_refuted : forall k, In k [KLMF; KNLMF; KSSLMS; KNSSLMS; KGNGD; KAng; KBenveniste; KMathews] ->
  exists (o : obj Q) d x,
  reachable 1 o /\ (exists kw, new_filter rng0 k kw = Ok o) /\ o_w o = [0%Q] /\ rows_of 1 x /\ length d = length x /\
  exists o1 o2 y1 e1 w1 y2 e2 w2, run d x o = (o1, Ok (y1, e1, w1)) /\
    run (map2 nadd d d) x o = (o2, Ok (y2, e2, w2)) /\ y2 <> map2 nadd y1 y1.
Proof.
  intros k Hk.
  exists (get_ok obj0 (mk k (1 # 2) [0]%Q None None)), [1; 1; 1; 1]%Q, [[1]; [1]; [1]; [1]]%Q.
  split.
  { apply (mk_reachable k (1 # 2) [0]%Q None None); try discriminate.
    destruct Hk as [<-|[<-|[<-|[<-|[<-|[<-|[<-|[<-|[]]]]]]]]]; reflexivity. }
  split.
  { exists (kwq 1 (1 # 2) [0]%Q None None). destruct Hk as [<-|[<-|[<-|[<-|[<-|[<-|[<-|[<-|[]]]]]]]]]; reflexivity. }
  destruct Hk as [<-|[<-|[<-|[<-|[<-|[<-|[<-|[<-|[]]]]]]]]];
    (split; [reflexivity|]; split; [repeat constructor|]; split; [reflexivity|];
     do 8 eexists; split; [vm_compute; reflexivity|]; split; [vm_compute; reflexivity|]; vm_compute; discriminate).
Qed.
End WitnessQ.

Open Scope R_scope.
Section WitnessR.
  Variable solve : list rvec -> list rvec -> option (list rvec).
  #[local] Hint Extern 0 (Num R) => exact (RNum solve) : typeclass_instances.
  Notation obj := (obj R).

  Lemma tanh_double z : 0 < z -> tanh (2 * z) <> 2 * tanh z.
  Proof.
    intros Hz. unfold tanh, sinh, cosh.
    replace (2 * z) with (z + z) by ring. rewrite Ropp_plus_distr, !exp_plus.
    assert (H1 : exp (- z) = / exp z) by apply exp_Ropp. rewrite H1.
    assert (Ha : 1 < exp z) by (rewrite <- exp_0; apply exp_increasing; lra).
    set (a := exp z) in *.
    assert (Hb : (a * a - / a * / a) / 2 / ((a * a + / a * / a) / 2) = (a ^ 4 - 1) / (a ^ 4 + 1)) by (field; split; nra).
    assert (Hc : (a - / a) / 2 / ((a + / a) / 2) = (a ^ 2 - 1) / (a ^ 2 + 1)) by (field; split; nra).
    rewrite Hb, Hc. intros E.
    assert (E2 : (a ^ 4 - 1) * (a ^ 2 + 1) = 2 * (a ^ 2 - 1) * (a ^ 4 + 1)).
    { apply (f_equal (fun t => t * ((a ^ 4 + 1) * (a ^ 2 + 1)))) in E.
      replace ((a ^ 4 - 1) / (a ^ 4 + 1) * ((a ^ 4 + 1) * (a ^ 2 + 1))) with ((a ^ 4 - 1) * (a ^ 2 + 1)) in E by (field; nra).
      replace (2 * ((a ^ 2 - 1) / (a ^ 2 + 1)) * ((a ^ 4 + 1) * (a ^ 2 + 1))) with (2 * (a ^ 2 - 1) * (a ^ 4 + 1)) in E by (field; nra).
      exact E. }
    set (b := a ^ 2) in *. assert (1 < b) by (unfold b; nra).
    replace (a ^ 4) with (b * b) in E2 by (unfold b; ring).
    assert (E3 : (b - 1) * ((b + 1) * (b + 1) - 2 * (b * b + 1)) = 0) by nra.
    apply Rmult_integral in E3. destruct E3; nra.
  Qed.

  (** *** The two classes with exp and tanh: doubling the target does not double the learned weights *)
  Theorem C51_GMCC_Llncosh_refuted : forall k, In k [KGMCC; KLlncosh] ->
    exists (kw : kwargs R) (o o1 o2 : obj) d x,
      kw_n kw = Some 2%Z /\ new_filter rngR k kw = Ok o /\ reachable 2 o /\ o_w o = [0; 0] /\ length x = 2%nat /\
      adapt d x o = (o1, Ok tt) /\ adapt (d + d) x o = (o2, Ok tt) /\ o_w o2 <> vadd (o_w o1) (o_w o1).
  Proof.
    intros k [<-|[<-|[]]].
    - assert (Hn : new_filter rngR KGMCC (kwR 1 None (Some 1) (Some 1)) = Ok (fresh2 1 (XGMCC 1 1))) by reflexivity.
      exists (kwR 1 None (Some 1) (Some 1)), (fresh2 1 (XGMCC 1 1)). do 2 eexists. exists 1, [1; 0]. split; [reflexivity|]. split; [exact Hn|].
      split; [exact (fresh2_reachable solve 1 None (Some 1) (Some 1) KGMCC _ Hn)|].
      split; [reflexivity|]. split; [reflexivity|].
      split; [apply (adapt_textbook solve); reflexivity|]. split; [apply (adapt_textbook solve); reflexivity|].
      cbn [set_w o_w fresh2 o_mu vsc map vadd map2 Rdot].
      set (E1 := exp (- (1) * Rpowf (Rabs (1 - _)) 1)). set (E2 := exp (- (1) * Rpowf (Rabs (1 + 1 - _)) 1)).
      assert (P : forall a, 0 < a -> Rsgn a = 1).
      { intros a Ha. unfold Rsgn. destruct (Rlt_dec a 0); [lra|]. destruct (Rlt_dec 0 a); [reflexivity|lra]. }
      assert (Q0 : forall a, 0 < a -> Rpowf (Rabs a) (1 - 1) = 1).
      { intros a Ha. rewrite Rabs_right by lra. unfold Rpowf.
        repeat match goal with |- context [if ?c then _ else _] => destruct c; try lra end.
        replace (1 - 1) with 0 by ring. apply Rpower_O. exact Ha. }
      assert (Q1 : forall a, 0 < a -> Rpowf (Rabs a) 1 = a).
      { intros a Ha. rewrite Rabs_right by lra. unfold Rpowf.
        repeat match goal with |- context [if ?c then _ else _] => destruct c; try lra end.
        apply Rpower_1. exact Ha. }
      assert (V1 : E1 = exp (- (1))) by (unfold E1; rewrite Q1 by lra; f_equal; lra).
      assert (V2 : E2 = exp (- (2))) by (unfold E2; rewrite Q1 by lra; f_equal; lra).
      rewrite !Q0 by lra. rewrite !P by lra. rewrite V1, V2.
      pose proof (exp_increasing (- (2)) (- (1)) ltac:(lra)). pose proof (exp_pos (- (1))).
      intros H1. injection H1 as H2 _. lra.
    - assert (Hn : new_filter rngR KLlncosh (kwR 1 None (Some 1) None) = Ok (fresh2 1 (XLlncosh 1))) by reflexivity.
      exists (kwR 1 None (Some 1) None), (fresh2 1 (XLlncosh 1)). do 2 eexists. exists 1, [1; 0]. split; [reflexivity|]. split; [exact Hn|].
      split; [exact (fresh2_reachable solve 1 None (Some 1) None KLlncosh _ Hn)|].
      split; [reflexivity|]. split; [reflexivity|].
      split; [apply (adapt_textbook solve); reflexivity|]. split; [apply (adapt_textbook solve); reflexivity|].
      cbn [set_w o_w fresh2 o_mu vsc map vadd map2 Rdot].
      replace (1 * (1 + 1 - (0 * 1 + (0 * 0 + 0)))) with (2 * 1) by ring.
      replace (1 * (1 - (0 * 1 + (0 * 0 + 0)))) with 1 by ring.
      pose proof (tanh_double 1 ltac:(lra)). intros H1. injection H1 as H2 _. lra.
  Qed.

  (** *** NSSLMS depends on the choice of axes *)
  Theorem C30_rotation_NSSLMS_refuted : exists (o1 o2 : obj) Q d x,
    reachable 2 o1 /\ reachable 2 o2 /\ o_ext o1 = XNSSLMS 1 /\ o_ext o2 = XNSSLMS 1 /\ o_mu o1 = o_mu o2 /\
    orthogonal 2 Q /\ o_w o2 = rotate Q (o_w o1) /\ length x = 2%nat /\
    o_w (fst (adapt d (rotate Q x) o2)) <> rotate Q (o_w (fst (adapt d x o1))).
  Proof.
    pose proof (fresh2_reachable solve 1 (Some 1) None None KNSSLMS (XNSSLMS 1) eq_refl) as Hr.
    exists (fresh2 1 (XNSSLMS 1)), (fresh2 1 (XNSSLMS 1)), [[3 / 5; - (4 / 5)]; [4 / 5; 3 / 5]], 1, [5; 0].
    split; auto. split; auto. split; [reflexivity|]. split; [reflexivity|]. split; [reflexivity|].
    split; [|split; [|split; [reflexivity|]]].
    - split; [split; [reflexivity|repeat constructor]|]. intros i j Hi Hj.
      destruct i as [|[|i]]; [| |lia]; (destruct j as [|[|j]]; [| |lia]); unfold ent, delta; cbn [sumn nth Nat.eqb]; lra.
    - unfold rotate, fresh2. cbn [map Rdot o_w]. f_equal; [lra|f_equal; lra].
    - rewrite (adapt_textbook solve (fresh2 1 (XNSSLMS 1)) 1 [5; 0] _ eq_refl eq_refl).
      rewrite (adapt_textbook solve (fresh2 1 (XNSSLMS 1)) 1 (rotate [[3 / 5; - (4 / 5)]; [4 / 5; 3 / 5]] [5; 0]) _ eq_refl eq_refl).
      assert (P : forall a, 0 < a -> Rsgn a = 1).
      { intros a Ha. unfold Rsgn. destruct (Rlt_dec a 0); [lra|]. destruct (Rlt_dec 0 a); [reflexivity|lra]. }
      assert (Z : Rsgn 0 = 0) by (unfold Rsgn; destruct (Rlt_dec 0 0); lra).
      unfold normsq. cbn [fst set_w o_w fresh2 o_mu rotate map Rdot vadd map2].
      rewrite Z. repeat match goal with |- context [Rsgn ?a] => rewrite (P a) by lra end.
      intros H. injection H as H1 H2.
      repeat match goal with H : context [1 / ?a] |- _ => replace a with 26 in H by field end. lra.
  Qed.
End WitnessR.
