(** C74 for IEEE binary64: rounding to nearest treats the two signs alike, so PropsSign.v applies to it, up to the sign
    of zero. *)
From Coq Require Import QArith Uint63 PrimFloat FloatOps FloatAxioms SpecFloat.
From Verif Require Import Py Num NumF Numpy Filters Registry Spec StructProofs RunProofs Reach Steps PropsOCNLMSF PropsWarm PropsReset
  PropsSign.
Open Scope nat_scope.

(** ** Specification *)
(** the same binary64 value (IEEE ==), or both nan *)
Definition same_float (a b : float) : Prop := a = b \/ (a =? b)%float = true.
(** b is a (s = false) or -a (s = true), where +0 and -0 are not told apart *)
Definition float_like (s : bool) (a b : float) : Prop := same_float (if s then (- a)%float else a) b.

(** binary64 with the functions tanh, exp and power that the kernel lacks *)
Definition FNumX (solve : list (list float) -> list (list float) -> option (list (list float)))
  (tanh exp : float -> float) (power : float -> float -> float) : Num float := {|
    nadd := PrimFloat.add; nsub := PrimFloat.sub; nmul := PrimFloat.mul; ndiv := PrimFloat.div;
    nopp := PrimFloat.opp; nabs := PrimFloat.abs; nsign := fsgn; npown := fpown; npow := power;
    nexp := exp; ntanh := tanh; nsqrt := PrimFloat.sqrt; nlog10 := fun _ => nan;
    nltb := PrimFloat.ltb; nleb := PrimFloat.leb; neqb := PrimFloat.eqb;
    nofZ := f_of_Z;
    nofQ := fun q => PrimFloat.div (f_of_Z (Qnum q)) (f_of_Z (Zpos (Qden q)));
    ntrunc := f_trunc;
    nsum := fun l => fold_left PrimFloat.add l 0%float;
    ndot := fun u v => fold_left PrimFloat.add (map2 PrimFloat.mul u v) 0%float;
    nsolve := solve |}.

(** an odd function, 0 at 0 *)
Definition odd_float (f : float -> float) : Prop := f 0%float = 0%float /\ forall a, f (- a)%float = (- f a)%float.

(** ** The exact side: SpecFloat *)
Definition sfo (s : bool) (x : spec_float) : spec_float := if s then SFopp x else x.
Definition sf_zero (x : spec_float) : Prop := exists s, x = S754_zero s.
Definition sflike (s : bool) (x y : spec_float) : Prop := y = sfo s x \/ (sf_zero x /\ sf_zero y).

Lemma cond_opp s m : cond_Zopp (negb s) m = (- cond_Zopp s m)%Z.
Proof. destruct s; cbn; lia. Qed.

Section SF.
  Variable prec emax : Z.
  Lemma round_aux_opp s m e l : binary_round_aux prec emax (negb s) m e l = SFopp (binary_round_aux prec emax s m e l).
  Proof.
    unfold binary_round_aux. destruct (shr_fexp _ _ _ _ _) as [a b]. destruct (shr_fexp _ _ (round_nearest_even _ _) _ _) as [c d].
    destruct (shr_m c) as [|p|p]; try reflexivity. destruct (d <=? _)%Z; reflexivity.
  Qed.
  Lemma round_opp s m e : binary_round prec emax (negb s) m e = SFopp (binary_round prec emax s m e).
  Proof. unfold binary_round. destruct (shl_align _ _ _) as [a b]. apply round_aux_opp. Qed.
  Lemma normalize_opp m e : binary_normalize prec emax (- m) e false = SFopp (binary_normalize prec emax m e false) \/
    m = 0%Z.
  Proof.
    destruct m as [|p|p]; [right; reflexivity| |]; left; cbn [Z.opp binary_normalize].
    - apply (round_opp false).
    - rewrite <- (round_opp true). reflexivity.
  Qed.

  Lemma opp_opp x : SFopp (SFopp x) = x.
  Proof. destruct x; cbn; rewrite ?Bool.negb_involutive; reflexivity. Qed.

  Lemma sflike_refl x : sflike false x x.
  Proof. left. reflexivity. Qed.
  Lemma zero_like s a b : sflike s (S754_zero a) (S754_zero b).
  Proof. right. split; eexists; reflexivity. Qed.
  Lemma zero_shape s x y : sflike s x y -> sf_zero x -> sf_zero y.
  Proof. intros [->|[_ H]] [a ->]; [|exact H]. destruct s; eexists; reflexivity. Qed.
  Lemma zero_shape' s x y : sflike s x y -> sf_zero y -> sf_zero x.
  Proof. intros [->|[H _]] [a E]; [|exact H]. destruct s; cbn [sfo] in E; destruct x; try discriminate; eexists; reflexivity. Qed.

  Lemma normalize_like s m e : sflike s (binary_normalize prec emax m e false) (binary_normalize prec emax (if s then (- m)%Z else m) e false).
  Proof.
    destruct s; [|apply sflike_refl]. destruct (normalize_opp m e) as [->| ->]; [left; reflexivity|apply zero_like].
  Qed.

  Lemma add_sflike s x x' y y' : sflike s x x' -> sflike s y y' -> sflike s (SFadd prec emax x y) (SFadd prec emax x' y').
  Proof.
    intros [->|[[a ->] [b ->]]] Hy.
    - destruct x as [a|a| |a m e].
      + destruct Hy as [->|[[c ->] [d ->]]].
        * destruct s, y as [c|c| |c m e]; try apply zero_like; try (left; reflexivity);
            destruct a, c; cbn; try apply zero_like; left; reflexivity.
        * destruct s, a, c, d; cbn; apply zero_like.
      + destruct Hy as [->|[[c ->] [d ->]]]; destruct s, a; try destruct y as [c|c| |c m e]; try destruct c; left; reflexivity.
      + left. destruct s; reflexivity.
      + destruct Hy as [->|[[c ->] [d ->]]]; [|left; destruct s; reflexivity].
        destruct y as [c|c| |c m' e']; try (left; destruct s; reflexivity).
        cbn [SFadd]. destruct s; [|apply sflike_refl]. cbn [sfo SFopp SFadd]. rewrite !cond_opp.
        replace (- cond_Zopp a (Zpos (fst (shl_align m e (Z.min e e')))) + - cond_Zopp c (Zpos (fst (shl_align m' e' (Z.min e e')))))%Z
          with (- (cond_Zopp a (Zpos (fst (shl_align m e (Z.min e e')))) + cond_Zopp c (Zpos (fst (shl_align m' e' (Z.min e e'))))))%Z by ring.
        exact (normalize_like true _ _).
    - destruct Hy as [->|[[c ->] [d ->]]].
      + destruct y as [c|c| |c m e]; [|left; destruct s; reflexivity ..]. destruct s, a, b, c; apply zero_like.
      + destruct s, a, b, c, d; apply zero_like.
  Qed.
  Lemma sub_sflike s x x' y y' : sflike s x x' -> sflike s y y' -> sflike s (SFsub prec emax x y) (SFsub prec emax x' y').
  Proof.
    intros [->|[[a ->] [b ->]]] Hy.
    - destruct x as [a|a| |a m e].
      + destruct Hy as [->|[[c ->] [d ->]]].
        * destruct s, y as [c|c| |c m e]; try apply zero_like; try (left; reflexivity);
            destruct a, c; cbn; try apply zero_like; left; reflexivity.
        * destruct s, a, c, d; cbn; apply zero_like.
      + destruct Hy as [->|[[c ->] [d ->]]]; destruct s, a; try destruct y as [c|c| |c m e]; try destruct c; left; reflexivity.
      + left. destruct s; reflexivity.
      + destruct Hy as [->|[[c ->] [d ->]]]; [|left; destruct s; reflexivity].
        destruct y as [c|c| |c m' e']; try (left; destruct s; reflexivity).
        cbn [SFsub]. destruct s; [|apply sflike_refl]. cbn [sfo SFopp SFsub]. rewrite !cond_opp.
        replace (- cond_Zopp a (Zpos (fst (shl_align m e (Z.min e e')))) - - cond_Zopp c (Zpos (fst (shl_align m' e' (Z.min e e')))))%Z
          with (- (cond_Zopp a (Zpos (fst (shl_align m e (Z.min e e')))) - cond_Zopp c (Zpos (fst (shl_align m' e' (Z.min e e'))))))%Z by ring.
        exact (normalize_like true _ _).
    - destruct Hy as [->|[[c ->] [d ->]]].
      + destruct y as [c|c| |c m e]; [|left; destruct s; reflexivity ..]. destruct s, a, b, c; apply zero_like.
      + destruct s, a, b, c, d; apply zero_like.
  Qed.
  Lemma mul_sflike s t x x' y y' : sflike s x x' -> sflike t y y' -> sflike (xorb s t) (SFmul prec emax x y) (SFmul prec emax x' y').
  Proof.
    intros [->|[[a ->] [b ->]]] [->|[[c ->] [d ->]]].
    - destruct x as [a|a| |a m e], y as [c|c| |c m' e']; try (destruct s, t; try apply zero_like; left; reflexivity);
        try (destruct s, t, a, c; try apply zero_like; left; reflexivity).
      left. destruct s, t; cbn [sfo SFopp SFmul xorb]; try reflexivity.
      + replace (xorb (negb a) (negb c)) with (xorb a c) by (destruct a, c; reflexivity). reflexivity.
      + rewrite <- round_aux_opp. f_equal. destruct a, c; reflexivity.
      + rewrite <- round_aux_opp. f_equal. destruct a, c; reflexivity.
    - destruct x as [a|a| |a m e]; destruct s, t; cbn; try apply zero_like; left; reflexivity.
    - destruct y as [c|c| |c m e]; destruct s, t; cbn; try apply zero_like; left; reflexivity.
    - apply zero_like.
  Qed.
  Lemma mul_opp_opp x y : SFmul prec emax (SFopp x) (SFopp y) = SFmul prec emax x y.
  Proof.
    destruct x as [a|a| |a m e], y as [c|c| |c m' e']; try reflexivity; destruct a, c; reflexivity.
  Qed.
End SF.

(** ** The primitive side *)
Lemma SF_inj (a b : float) : Prim2SF a = Prim2SF b -> a = b.
Proof. intros H. rewrite <- (SF2Prim_Prim2SF a), H. apply SF2Prim_Prim2SF. Qed.
Lemma sfo_opp (s : bool) (a : float) : Prim2SF (if s then (- a)%float else a) = sfo s (Prim2SF a).
Proof. destruct s; [apply opp_spec|reflexivity]. Qed.

Lemma eqb_zero_or a b : (a =? b)%float = true -> a = b \/ (sf_zero (Prim2SF a) /\ sf_zero (Prim2SF b)).
Proof.
  rewrite FloatAxioms.eqb_spec. unfold SFeqb. intros H.
  destruct (Prim2SF a) as [s|s| |s m e] eqn:Ea, (Prim2SF b) as [t|t| |t m' e'] eqn:Eb; cbn in H; try discriminate;
    try (right; split; eexists; reflexivity); try (destruct s; discriminate); try (destruct t; discriminate).
  - left. apply SF_inj. rewrite Ea, Eb. destruct s, t; try discriminate; reflexivity.
  - left. apply SF_inj. rewrite Ea, Eb. destruct s, t; try discriminate;
      destruct (e ?= e')%Z eqn:Ee; try discriminate; apply Z.compare_eq in Ee; subst;
      destruct (Pos.compare_cont Eq m m') eqn:Em; try discriminate; apply Pos.compare_eq in Em; subst; reflexivity.
Qed.
Lemma zero_eqb a b : sf_zero (Prim2SF a) -> sf_zero (Prim2SF b) -> (a =? b)%float = true.
Proof. intros [s Ha] [t Hb]. rewrite FloatAxioms.eqb_spec, Ha, Hb. reflexivity. Qed.

Lemma float_like_SF s a b : float_like s a b <-> sflike s (Prim2SF a) (Prim2SF b).
Proof.
  unfold float_like, same_float. split.
  - intros H. assert (H1 : (if s then (- a)%float else a) = b \/ (sf_zero (sfo s (Prim2SF a)) /\ sf_zero (Prim2SF b))).
    { destruct H as [H|H]; [left; exact H|]. rewrite <- sfo_opp. apply eqb_zero_or, H. }
    destruct H1 as [<-|(H1 & H2)]; [left; apply sfo_opp|right]. split; [|exact H2].
    destruct H1 as [t H1]. destruct s; cbn [sfo] in H1; [|exists t; exact H1].
    destruct (Prim2SF a); try discriminate. eexists; reflexivity.
  - intros [H|(H1 & H2)]; [left; apply SF_inj; rewrite sfo_opp; symmetry; exact H|].
    right. apply zero_eqb; [|exact H2]. rewrite sfo_opp. destruct H1 as [t ->]. destruct s; eexists; reflexivity.
Qed.

Lemma fadd_like s a a' b b' : float_like s a a' -> float_like s b b' -> float_like s (a + b)%float (a' + b')%float.
Proof. rewrite !float_like_SF, !add_spec. apply add_sflike. Qed.
Lemma fsub_like s a a' b b' : float_like s a a' -> float_like s b b' -> float_like s (a - b)%float (a' - b')%float.
Proof. rewrite !float_like_SF, !sub_spec. apply sub_sflike. Qed.
Lemma fmul_like s t a a' b b' : float_like s a a' -> float_like t b b' -> float_like (xorb s t) (a * b)%float (a' * b')%float.
Proof. rewrite !float_like_SF, !mul_spec. apply mul_sflike. Qed.
Lemma fzero_like s : float_like s 0%float 0%float.
Proof. destruct s; right; reflexivity. Qed.

Lemma fsgn_like s a a' : float_like s a a' -> float_like s (fsgn a) (fsgn a').
Proof.
  intros H. pose proof H as H0. rewrite float_like_SF in H. unfold fsgn. rewrite !FloatAxioms.ltb_spec.
  change (Prim2SF 0%float) with (S754_zero false).
  destruct H as [H|([t H1] & [u H2])]; [rewrite H|rewrite H1, H2; exact H0].
  destruct s; cbn [sfo].
  - destruct (Prim2SF a) as [t|t| |t m e]; cbn; try destruct t; cbn; try exact H0; left; reflexivity.
  - destruct (Prim2SF a) as [t|t| |t m e]; cbn; try destruct t; cbn; try exact H0; left; reflexivity.
Qed.

Lemma fabs_like s a a' : float_like s a a' -> PrimFloat.abs a' = PrimFloat.abs a.
Proof.
  rewrite float_like_SF. intros H. apply SF_inj. rewrite !abs_spec.
  destruct H as [->|([t ->] & [u ->])]; [|reflexivity]. destruct s; [|reflexivity]. destruct (Prim2SF a); reflexivity.
Qed.

Lemma odd_like f s a a' : odd_float f -> float_like s a a' -> float_like s (f a) (f a').
Proof.
  intros (H0 & Hodd) H. rewrite float_like_SF in H. destruct H as [H|(H1 & H2)].
  - assert (E : a' = (if s then (- a)%float else a)) by (apply SF_inj; rewrite sfo_opp; exact H). rewrite E.
    destruct s; [rewrite Hodd|]; left; reflexivity.
  - assert (Z : forall b, sf_zero (Prim2SF b) -> sf_zero (Prim2SF (f b))).
    { intros b [t Hb]. destruct t.
      - assert (E : b = (- 0)%float) by (apply SF_inj; rewrite Hb; reflexivity). rewrite E, Hodd, H0. eexists; reflexivity.
      - assert (E : b = 0%float) by (apply SF_inj; rewrite Hb; reflexivity). rewrite E, H0. eexists; reflexivity. }
    apply float_like_SF. right. split; apply Z; assumption.
Qed.

Lemma fold_like s l l' : Forall2 (float_like s) l l' -> forall a a', float_like s a a' ->
  float_like s (fold_left PrimFloat.add l a) (fold_left PrimFloat.add l' a').
Proof. intros H. induction H as [|b b' l l' Hb H IH]; intros a a' Ha; cbn [fold_left]; [exact Ha|]. apply IH, fadd_like; auto. Qed.

Theorem C74_rounding_is_sign_blind : forall solve tanh exp power, odd_float tanh ->
  sign_blind (NT := FNumX solve tanh exp power) float_like.
Proof.
  intros solve tanh exp power Ht. constructor.
  - intros a. left. reflexivity.
  - intros s. apply fzero_like.
  - intros a. left. reflexivity.
  - apply fadd_like.
  - apply fsub_like.
  - apply fmul_like.
  - apply fsgn_like.
  - intros s a a' H. change (float_like s (a * a * a)%float (a' * a' * a')%float).
    pose proof (fmul_like _ _ _ _ _ _ (fmul_like _ _ _ _ _ _ H H) H) as H1. destruct s; exact H1.
  - intros s a a'. apply odd_like, Ht.
  - apply fabs_like.
  - intros s t u u' v v' Hl Hu Hv. apply fold_like; [|apply fzero_like]. clear Hl. revert v v' Hv.
    induction Hu as [|a a' u u' Ha Hu IH]; intros v v' Hv; [constructor|].
    destruct Hv as [|b b' v v' Hb Hv]; cbn [map2]; constructor; [apply fmul_like; auto|auto].
  - intros u. change (fold_left PrimFloat.add (map2 PrimFloat.mul (map PrimFloat.opp u) (map PrimFloat.opp u)) 0%float =
      fold_left PrimFloat.add (map2 PrimFloat.mul u u) 0%float).
    f_equal. induction u as [|a u IH]; [reflexivity|]. cbn [map map2]. rewrite IH. f_equal.
    apply SF_inj. rewrite !mul_spec, !opp_spec. apply mul_opp_opp.
Qed.

(** *** C74.  binary64: mirror every input (sx), every target (sd) and the initial weights (sx xor sd) of an LMS, LMF,
    SSLMS, NLMS, NLMF, NSSLMS, GMCC or Llncosh filter.  After any script of well-shaped calls the numbers returned and
    the weights are the mirrored ones, bit for bit except for the sign of zeros (infinities and nan included), and a
    call raises exactly when its mirror image does. *)
Theorem C74_mirror_binary64 : forall solve tanh exp power, odd_float tanh ->
  let NT := FNumX solve tanh exp power in
  forall rng rng' k (kw : kwargs float) n (o : obj float) sx sd,
  memoryless k = true -> rng_ok rng -> sane_kw kw -> kw_n kw = Some (Z.of_nat n) -> @new_filter _ NT rng k kw = Ok o ->
  exists g, @new_filter _ NT rng' k (kw_restart kw (@flip_row _ NT (xorb sx sd) (o_w o))) = Ok g /\
    forall ps, Forall (op_shape n) ps ->
      Forall2 (mirror_result float_like sx sd) (@outcomes _ NT ps o) (@outcomes _ NT (map (@mirror_call _ NT sx sd) ps) g) /\
      Forall2 (float_like (xorb sx sd)) (o_w (@exec_all _ NT ps o)) (o_w (@exec_all _ NT (map (@mirror_call _ NT sx sd) ps) g)).
Proof.
  intros solve tanh exp power Ht NT. apply (C74_mirror (NT := NT)). apply C74_rounding_is_sign_blind, Ht.
Qed.

(** a concrete case: NLMS with decimal parameters, weights zero, mirrored targets.  The errors are exactly mirrored; the
    first output is +0 in both runs, so "up to the sign of zero" cannot be dropped *)
Definition sgnF (A B : list (list float)) : option (list (list float)) := None.
#[local] Hint Extern 0 (Num float) => exact (FNumX sgnF (fun a => a) (fun a => a) (fun a _ => a)) : typeclass_instances.
Definition tenth : float := (1 / 10)%float.
Definition signF_kw : kwargs float :=
  mkKw (Some 2%Z) (Some tenth) (Some (WStr "zeros")) (Some tenth) None None None None None None None false.
Definition signF : obj float := mkObj [zero; zero] 2 tenth None (XNLMS tenth).
Example C74_hypotheses :
  odd_float (fun a => a) /\ memoryless KNLMS = true /\ rng_ok (fun k => repeat zero k) /\ sane_kw signF_kw /\
  new_filter (fun k => repeat zero k) KNLMS signF_kw = Ok signF /\
  let d := [one; tenth; (two / 3)%float] in let x := [[one; tenth]; [tenth; two]; [(one / 3)%float; one]] in
  Forall (op_shape 2) [OpRun d x; OpPredict [one; one]] /\
  exists o1 y1 y2 e1 e2 e3 w, run d x signF = (o1, Ok ([zero; y1; y2], [e1; e2; e3], w)) /\
    (y1 <? y2)%float = true /\ (zero <? y1)%float = true /\
  exists o2 w', run (flip_row true d) x signF = (o2, Ok ([zero; (- y1)%float; (- y2)%float], [(- e1)%float; (- e2)%float; (- e3)%float], w')) /\
    zero <> (- zero)%float.
Proof.
  split; [split; reflexivity|]. split; [reflexivity|]. split; [intros k; apply repeat_length|].
  split; [split; discriminate|]. split; [vm_compute; reflexivity|]. cbv zeta.
  split; [repeat constructor|]. do 7 eexists. split; [vm_compute; reflexivity|].
  split; [vm_compute; reflexivity|]. split; [vm_compute; reflexivity|]. do 2 eexists. split; [vm_compute; reflexivity|].
  intros H. apply (f_equal (fun a => (one / a)%float)) in H.
  apply (f_equal (fun a => (zero <? a)%float)) in H. vm_compute in H. discriminate.
Qed.
