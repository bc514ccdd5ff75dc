(** C127: multiplying individual samples (input row and target) by factors (exact real arithmetic). *)
From Coq Require Import Reals Lra Psatz FunctionalExtensionality QArith.
From Verif Require Import Py Num NumQ Numpy Filters Registry Spec StructProofs RunProofs Reach RVec RFilter Steps RMat PropsRun PropsRegistry PropsStability PropsAlgebra PropsAP PropsAPConverge PropsRLS PropsRecursion PropsSilence PropsDead PropsProportional.
Open Scope R_scope.

(** ** Specification *)
(** target k and row k multiplied by factor k *)
Definition weigh (cs d : rvec) : rvec := map2 Rmult cs d.
Definition weigh_rows (cs : rvec) (x : list rvec) : list rvec := map2 vsc cs x.
(** the classes for which the sign of a sample is immaterial *)
Definition blind_to_signs (c : kind) : bool := match c with KAng | KBenveniste | KOCNLMS => false | _ => true end.

Lemma sgn_mult a b : Rsgn (a * b) = Rsgn a * Rsgn b.
Proof.
  destruct (Rtotal_order a 0) as [Ha|[->|Ha]].
  - replace (a * b) with (- a * - b) by ring. rewrite sgn_pos by lra. unfold Rsgn. repeat destruct Rlt_dec; lra.
  - rewrite Rmult_0_l, Rsgn_0. ring.
  - rewrite sgn_pos by exact Ha. unfold Rsgn. repeat destruct Rlt_dec; lra.
Qed.

Lemma sgn_sq c : c <> 0 -> Rsgn c * Rsgn c = 1.
Proof. intros H. unfold Rsgn. repeat destruct Rlt_dec; lra. Qed.
Lemma sgn_pair c a b : c <> 0 -> Rsgn (c * a) * Rsgn (c * b) = Rsgn a * Rsgn b.
Proof. intros H. rewrite !sgn_mult. replace (Rsgn c * Rsgn a * (Rsgn c * Rsgn b)) with (Rsgn c * Rsgn c * (Rsgn a * Rsgn b)) by ring. rewrite (sgn_sq c H). ring. Qed.

Section Pub.
  Variables (kw : kwargs R) (n N : nat) (c : nat -> R) (d : nat -> R) (x : nat -> nat -> R) (y e : nat -> R) (W : nat -> nat -> R).
  Let d' k := c k * d k.
  Let x' k i := c k * x k i.
  Let y0 k := / c k * y k.
  Let e0 k := / c k * e k.

  Lemma dot_l k v : dotn n v (x' k) = c k * dotn n v (x k).
  Proof. unfold dotn, x'. rewrite <- sumn_scal. apply sumn_ext. intros. ring. Qed.
  Lemma dot_r k v : dotn n (x' k) v = c k * dotn n (x k) v.
  Proof. unfold dotn, x'. rewrite <- sumn_scal. apply sumn_ext. intros. ring. Qed.
  Lemma linear_scaled : (forall k, (k < N)%nat -> c k <> 0) ->
    (forall k, (k < N)%nat -> e k = d' k - y k) /\ (forall k, (k < N)%nat -> y k = dotn n (W k) (x' k)) ->
    (forall k, (k < N)%nat -> e0 k = d k - y0 k) /\ (forall k, (k < N)%nat -> y0 k = dotn n (W k) (x k)).
  Proof.
    intros Hc (H1 & H2). split; intros k Hk; unfold e0, y0; specialize (Hc k Hk).
    - rewrite H1 by exact Hk. unfold d'. field. exact Hc.
    - rewrite H2, dot_l by exact Hk. field. exact Hc.
  Qed.
  Lemma e_of k : c k <> 0 -> e k = c k * e0 k.
  Proof. intros H. unfold e0. field. exact H. Qed.

  Lemma scaled_SSLMS : (forall k, (k < N)%nat -> c k <> 0) -> published KSSLMS kw n N d' x' y e W -> published KSSLMS kw n N d x y0 e0 W.
  Proof.
    intros Hc (HL & HM). split; [exact (linear_scaled Hc HL)|]. intros k i Hk Hi. rewrite HM by assumption. unfold x'. rewrite (e_of k (Hc k Hk)), Rmult_assoc, sgn_pair by auto. ring.
  Qed.
  Lemma scaled_NLMS : (forall k, (k < N)%nat -> c k <> 0) -> par (kw_eps kw) (1 / 1000) = 0 -> (forall k, (k < N)%nat -> dotn n (x k) (x k) <> 0) ->
    published KNLMS kw n N d' x' y e W -> published KNLMS kw n N d x y0 e0 W.
  Proof.
    intros Hc He Hx (HL & HM). split; [exact (linear_scaled Hc HL)|]. intros k i Hk Hi. rewrite HM by assumption. cbv zeta. rewrite He, dot_l, dot_r. unfold x'. rewrite (e_of k (Hc k Hk)).
    specialize (Hc k Hk). specialize (Hx k Hk). field. auto.
  Qed.

  Lemma flipped cl : blind_to_signs cl = true -> (forall k, (k < N)%nat -> c k * c k = 1) -> published cl kw n N d' x' y e W -> published cl kw n N d x y0 e0 W.
  Proof.
    intros Hcl Hcc HP. assert (Hc : forall k, (k < N)%nat -> c k <> 0) by (intros k Hk E; specialize (Hcc k Hk); rewrite E in Hcc; lra).
    pose proof (linear_scaled Hc) as LIN.
    assert (XX : forall k, (k < N)%nat -> dotn n (x' k) (x' k) = dotn n (x k) (x k)) by (intros k Hk; rewrite dot_l, dot_r, <- Rmult_assoc, (Hcc k Hk); ring).
    assert (EX : forall k i, (k < N)%nat -> e k * x' k i = e0 k * x k i) by (intros k i Hk; unfold x'; rewrite (e_of k (Hc k Hk)); replace (c k * e0 k * (c k * x k i)) with (c k * c k * (e0 k * x k i)) by ring; rewrite (Hcc k Hk); ring).
    assert (SE : forall k, (k < N)%nat -> Rabs (e k) = Rabs (e0 k)).
    { intros k Hk. rewrite (e_of k (Hc k Hk)), Rabs_mult. replace (Rabs (c k)) with 1; [ring|]. specialize (Hcc k Hk). unfold Rabs. destruct (Rcase_abs (c k)); nra. }
    assert (EE : forall k, (k < N)%nat -> e k * before e k * dotn n (x' k) (vbefore x' k) = e0 k * before e0 k * dotn n (x k) (vbefore x k)).
    { intros [|k] Hk; [cbn [before]; ring|]. cbn [before]. change (vbefore x' (S k)) with (x' k). change (vbefore x (S k)) with (x k).
      rewrite dot_l, dot_r. rewrite (e_of (S k)), (e_of k) by (apply Hc; lia).
      replace (c (S k) * e0 (S k) * (c k * e0 k) * (c k * (c (S k) * dotn n (x (S k)) (x k)))) with ((c (S k) * c (S k)) * (c k * c k) * (e0 (S k) * e0 k * dotn n (x (S k)) (x k))) by ring.
      rewrite !Hcc by lia. ring. }
    assert (VV : forall k, (k < N)%nat -> dotn n (vbefore x' k) (vbefore x' k) = dotn n (vbefore x k) (vbefore x k)) by (intros [|k] Hk; [reflexivity|apply XX; lia]).
    unfold published in HP |- *. cbv zeta in HP |- *. destruct cl; try discriminate Hcl.
    - (* AP *) destruct HP as (HL & G & HG & HM). split; [exact (LIN HL)|]. set (K := par (kw_order kw) 5%nat) in *. set (ifc := par (kw_ifc kw) (1 / 1000)) in *.
      set (cc := fun k a => if (a <=? k)%nat then c (k - a)%nat else 1).
      assert (CC : forall k a, (k < N)%nat -> cc k a * cc k a = 1) by (intros k a Hk; unfold cc; destruct (_ <=? _)%nat; [apply Hcc; lia|ring]).
      assert (AX : forall k a i, ago (fun t => x' t i) k a = cc k a * ago (fun t => x t i) k a) by (intros k a i; unfold ago, cc; destruct (_ <=? _)%nat; [reflexivity|ring]).
      assert (AD : forall k a, ago d' k a = cc k a * ago d k a) by (intros k a; unfold ago, cc; destruct (_ <=? _)%nat; [reflexivity|ring]).
      exists (fun k a b => cc k a * G k a b * cc k b). split.
      + intros k a b Hk Ha Hb.
        transitivity (cc k a * cc k b * delta a b).
        2: { unfold delta. destruct (Nat.eqb_spec a b) as [->|]; [rewrite CC by exact Hk|]; ring. }
        rewrite <- (HG k a b Hk Ha Hb), <- sumn_scal. apply sumn_ext. intros l Hl.
        rewrite (sumn_ext n (fun i => ago (fun t => x' t i) k a * ago (fun t => x' t i) k l) (fun i => (cc k a * cc k l) * (ago (fun t => x t i) k a * ago (fun t => x t i) k l))) by (intros; rewrite !AX; ring).
        rewrite sumn_scal. set (s := sumn n _).
        replace (cc k a * cc k b * ((cc k a * cc k l * s + ifc * delta a l) * G k l b)) with ((cc k a * cc k a) * s * (cc k l * G k l b * cc k b) + ifc * (cc k a * delta a l) * G k l b * cc k b) by ring.
        rewrite CC by exact Hk. replace (cc k a * delta a l) with (cc k l * delta a l) by (unfold delta; destruct (Nat.eqb_spec a l) as [->|]; ring). ring.
      + intros k i Hk Hi. rewrite HM by assumption. f_equal. f_equal. apply sumn_ext. intros a Ha. rewrite AX.
        replace (cc k a * ago (fun t => x t i) k a * sumn K (fun b => G k a b * (ago d' k b - sumn n (fun i0 => ago (fun t => x' t i0) k b * W k i0)))) with
          (ago (fun t => x t i) k a * (cc k a * sumn K (fun b => G k a b * (ago d' k b - sumn n (fun i0 => ago (fun t => x' t i0) k b * W k i0))))) by ring.
        f_equal. rewrite <- sumn_scal. apply sumn_ext. intros b Hb. rewrite AD.
        rewrite (sumn_ext n _ (fun i0 => cc k b * (ago (fun t => x t i0) k b * W k i0))) by (intros; rewrite AX; ring). rewrite sumn_scal. ring.
    - (* GMCC *) destruct HP as (HL & HM). split; [exact (LIN HL)|]. intros k i Hk Hi. rewrite HM by assumption. rewrite (SE k Hk). f_equal.
      unfold x'. rewrite (e_of k (Hc k Hk)) at 1. rewrite sgn_mult.
      assert (HS : Rsgn (c k) * c k = 1) by (specialize (Hcc k Hk); unfold Rsgn; repeat destruct Rlt_dec; nra).
      set (A := par (kw_lambd kw) (3 / 100)). set (B := rate KGMCC kw * A * _ * _ * _). replace (B * (Rsgn (c k) * Rsgn (e0 k)) * (c k * x k i)) with (B * Rsgn (e0 k) * x k i * (Rsgn (c k) * c k)) by ring. rewrite HS. ring.
    - (* GNGD *) destruct HP as (HL & m & H0 & HS & HM). split; [exact (LIN HL)|]. exists m. split; [exact H0|]. split.
      + intros k Hk. rewrite HS by exact Hk. rewrite EE, VV by exact Hk. reflexivity.
      + intros k i Hk Hi. rewrite HM by assumption. rewrite XX by exact Hk. rewrite Rmult_assoc, EX by exact Hk. ring.
    - (* Llncosh *) destruct HP as (HL & HM). split; [exact (LIN HL)|]. intros k i Hk Hi. rewrite HM by assumption. f_equal. unfold x'. rewrite (e_of k (Hc k Hk)) at 1.
      set (la := par (kw_lambd kw) 3).
      assert (HT : tanh (la * (c k * e0 k)) * c k = tanh (la * e0 k)).
      { assert (HC : c k = 1 \/ c k = -1) by (specialize (Hcc k Hk); assert ((c k - 1) * (c k + 1) = 0) by lra; destruct (Rmult_integral _ _ H); [left|right]; lra). destruct HC as [->| ->].
        - rewrite Rmult_1_l. ring.
        - replace (la * (-1 * e0 k)) with (- (la * e0 k)) by ring. rewrite tanh_opp. ring. }
      rewrite <- HT. ring.
    - (* LMF *) destruct HP as (HL & HM). split; [exact (LIN HL)|]. intros k i Hk Hi. rewrite HM by assumption. f_equal. unfold x'. rewrite (e_of k (Hc k Hk)) at 1.
      replace (rate KLMF kw * (c k * e0 k) ^ 3 * (c k * x k i)) with ((c k * c k) * (c k * c k) * (rate KLMF kw * e0 k ^ 3 * x k i)) by ring. rewrite (Hcc k Hk). ring.
    - (* LMS *) destruct HP as (HL & HM). split; [exact (LIN HL)|]. intros k i Hk Hi. rewrite HM by assumption. rewrite Rmult_assoc, EX by exact Hk. ring.
    - (* NLMF *) destruct HP as (HL & HM). split; [exact (LIN HL)|]. intros k i Hk Hi. rewrite HM by assumption. rewrite XX by exact Hk. f_equal. unfold x'. rewrite (e_of k (Hc k Hk)) at 1.
      set (g := rate _ _ / _). replace (g * (c k * e0 k) ^ 3 * (c k * x k i)) with ((c k * c k) * (c k * c k) * (g * e0 k ^ 3 * x k i)) by ring. rewrite (Hcc k Hk). ring.
    - (* NLMS *) destruct HP as (HL & HM). split; [exact (LIN HL)|]. intros k i Hk Hi. rewrite HM by assumption. rewrite XX by exact Hk. rewrite Rmult_assoc, EX by exact Hk. ring.
    - (* NSSLMS *) destruct HP as (HL & HM). split; [exact (LIN HL)|]. intros k i Hk Hi. rewrite HM by assumption. rewrite XX by exact Hk. unfold x'. rewrite (e_of k (Hc k Hk)), Rmult_assoc, sgn_pair by auto. ring.
    - (* RLS *) destruct HP as (HL & P & H0 & HS & HM). split; [exact (LIN HL)|]. exists P.
      assert (S1 : forall k (f : nat -> R), sumn n (fun a => f a * x' k a) = c k * sumn n (fun a => f a * x k a)) by (intros; rewrite <- sumn_scal; apply sumn_ext; intros; unfold x'; ring).
      assert (S2 : forall k (f : nat -> R), sumn n (fun a => x' k a * f a) = c k * sumn n (fun a => x k a * f a)) by (intros; rewrite <- sumn_scal; apply sumn_ext; intros; unfold x'; ring).
      split; [exact H0|]. split.
      + intros k i j Hk Hi Hj. rewrite HS by assumption.
        rewrite (S1 k (fun a => P k i a)), (S2 k (fun a => P k a j)), (S2 k (fun a => sumn n (fun a0 => P k a a0 * x' k a0))).
        rewrite (sumn_ext n (fun a => x k a * sumn n (fun a0 => P k a a0 * x' k a0)) (fun a => c k * (x k a * sumn n (fun a0 => P k a a0 * x k a0)))) by (intros; rewrite S1; ring).
        rewrite sumn_scal. replace (c k * (c k * sumn n (fun a => x k a * sumn n (fun a0 => P k a a0 * x k a0)))) with (c k * c k * sumn n (fun a => x k a * sumn n (fun a0 => P k a a0 * x k a0))) by ring.
        set (u := sumn n (fun a => P k i a * x k a)). set (v := sumn n (fun a => x k a * P k a j)). replace (c k * u * (c k * v)) with (c k * c k * (u * v)) by ring. rewrite (Hcc k Hk), !Rmult_1_l. reflexivity.
      + intros k i Hk Hi. rewrite HM by assumption. rewrite S1. f_equal. rewrite (e_of k (Hc k Hk)). set (u := sumn n _). replace (c k * u * (c k * e0 k)) with (c k * c k * (u * e0 k)) by ring. rewrite (Hcc k Hk). ring.
    - (* SSLMS *) apply scaled_SSLMS; assumption.
    - (* Mathews *) destruct HP as (HL & m & H0 & HS & HM). split; [exact (LIN HL)|]. exists m. split; [exact H0|]. split.
      + intros k Hk. rewrite HS by exact Hk. specialize (EE k Hk). 
        replace (dotn n (vbefore x' k) (x' k)) with (dotn n (x' k) (vbefore x' k)) by (unfold dotn; apply sumn_ext; intros; ring). replace (dotn n (vbefore x k) (x k)) with (dotn n (x k) (vbefore x k)) by (unfold dotn; apply sumn_ext; intros; ring).
        set (ro := par (kw_ro kw) (1 / 10)). replace (ro * e k * before e k * dotn n (x' k) (vbefore x' k)) with (ro * (e k * before e k * dotn n (x' k) (vbefore x' k))) by ring. rewrite EE. ring.
      + intros k i Hk Hi. rewrite HM by assumption. rewrite Rmult_assoc, EX by exact Hk. ring.
  Qed.
  (** LMS on samples divided by sqrt (eps + |x|^2) is NLMS *)
  Lemma scaled_LMS_NLMS kwL : (forall k, (k < N)%nat -> c k * c k * (par (kw_eps kw) (1 / 1000) + dotn n (x k) (x k)) = 1) -> rate KLMS kwL = rate KNLMS kw ->
    published KLMS kwL n N d' x' y e W -> published KNLMS kw n N d x y0 e0 W.
  Proof.
    intros Hn HR (HL & HM). assert (Hc : forall k, (k < N)%nat -> c k <> 0) by (intros k Hk E; specialize (Hn k Hk); rewrite E in Hn; lra).
    split; [exact (linear_scaled Hc HL)|]. intros k i Hk Hi. rewrite HM by assumption. cbv zeta. rewrite HR. unfold x'. rewrite (e_of k (Hc k Hk)). specialize (Hn k Hk). set (s := par _ _ + dotn _ _ _) in *.
    assert (Hs : s <> 0) by (intros E; rewrite E in Hn; lra). f_equal. set (mu := rate _ _).
    replace (mu * (c k * e0 k) * (c k * x k i)) with (mu * (c k * c k * s) / s * e0 k * x k i) by (field; exact Hs). rewrite Hn. unfold Rdiv. ring.
  Qed.
  (** LMS on scaled samples: each sample has its own step *)
  Lemma scaled_LMS : (forall k, (k < N)%nat -> c k <> 0) -> published KLMS kw n N d' x' y e W ->
    (forall k, (k < N)%nat -> y k = c k * dotn n (W k) (x k)) /\
    forall k i, (k < N)%nat -> (i < n)%nat -> W (S k) i = W k i + rate KLMS kw * c k ^ 2 * (d k - dotn n (W k) (x k)) * x k i.
  Proof.
    intros Hc ((H1 & H2) & HM). split; intros k; [intros Hk; rewrite H2, dot_l by exact Hk; reflexivity|]. intros i Hk Hi. rewrite HM, H1, H2, dot_l by assumption. unfold d', x'. ring.
  Qed.
End Pub.

Section Program.
  Variable solve : list rvec -> list rvec -> option (list rvec).
  #[local] Hint Extern 0 (Num R) => exact (RNum solve) : typeclass_instances.
  Notation obj := (obj R).

  Lemma weigh_nth cs d k : length cs = length d -> nth k (weigh cs d) 0 = nth k cs 0 * nth k d 0.
  Proof. revert d k. induction cs as [|c cs IH]; intros [|t d] k H; try discriminate H; [destruct k; cbn; ring|]. unfold weigh in *. cbn [map2]. destruct k; cbn [nth]; [reflexivity|]. apply IH. injection H as H. exact H. Qed.
  Lemma weigh_rows_nth cs x k i : length cs = length x -> nth i (nth k (weigh_rows cs x) []) 0 = nth k cs 0 * nth i (nth k x []) 0.
  Proof. revert x k. induction cs as [|c cs IH]; intros [|t x] k H; try discriminate H; [destruct k, i; cbn; ring|]. unfold weigh_rows in *. cbn [map2]. destruct k; cbn [nth]; [apply nth_vsc|]. apply IH. injection H as H. exact H. Qed.
  Lemma weigh_length cs d : length cs = length d -> length (weigh cs d) = length d.
  Proof. intros H. unfold weigh. rewrite map2_len. lia. Qed.
  Lemma weigh_rows_length cs x : length cs = length x -> length (weigh_rows cs x) = length x.
  Proof. intros H. unfold weigh_rows. rewrite map2_len. lia. Qed.
  Lemma weigh_rows_of n cs x : length cs = length x -> rows_of n x -> rows_of n (weigh_rows cs x).
  Proof.
    revert x. induction cs as [|c cs IH]; intros [|r x] H Hx; try discriminate H; [constructor|]. inversion Hx as [|? ? H1 H2]; subst. unfold weigh_rows in *. cbn [map2]. constructor; [apply vsc_length|].
    apply IH; [injection H as H; exact H|exact H2].
  Qed.

  (** two runs of filters of classes c1 and c2 whose recursions correspond *)
  Lemma transfer rng c1 c2 (kw1 kw2 : kwargs R) n (o1 o2 o1' o2' : obj) cs d x y e w y' e' w' :
    rng_ok rng -> sane_kw kw1 -> sane_kw kw2 -> kw_n kw1 = Some (Z.of_nat n) -> kw_n kw2 = Some (Z.of_nat n) ->
    new_filter rng c1 kw1 = Ok o1 -> new_filter rng c2 kw2 = Ok o2 -> o_w o2 = o_w o1 ->
    (c1 = KAP -> good_solver solve) -> (c1 = KOCNLMS -> kw_mem kw1 <> Some 1%nat) -> (c2 = KAP -> good_solver solve) -> (c2 = KOCNLMS -> kw_mem kw2 <> Some 1%nat) ->
    rows_of n x -> length cs = length x -> (forall k, (k < length x)%nat -> nth k cs 0 <> 0) ->
    (forall y e W, published c2 kw2 n (length x) (fun k => nth k cs 0 * nth k d 0) (fun k i => nth k cs 0 * nth i (nth k x []) 0) y e W ->
       published c1 kw1 n (length x) (fun k => nth k d 0) (fun k i => nth i (nth k x []) 0) (fun k => / nth k cs 0 * y k) (fun k => / nth k cs 0 * e k) W) ->
    run d x o1 = (o1', Ok (y, e, w)) -> run (weigh cs d) (weigh_rows cs x) o2 = (o2', Ok (y', e', w')) ->
    y' = weigh cs y /\ e' = weigh cs e /\ w' = w /\ o_w o2' = o_w o1'.
  Proof.
    intros Hrng Hk1 Hk2 Hn1 Hn2 Ho1 Ho2 HW Ha1 Hc1 Ha2 Hc2 Hx Lc Hc HP HR1 HR2.
    pose proof (new_filter_wf rng c1 kw1 n o1 Hrng Hk1 Hn1 Ho1) as W1. pose proof (new_filter_wf rng c2 kw2 n o2 Hrng Hk2 Hn2 Ho2) as W2.
    pose proof (weigh_rows_of n cs x Lc Hx) as Hx'. pose proof (weigh_rows_length cs x Lc) as Lx'.
    destruct (run_lengths solve n o1 o1' d x y e w W1 Hx HR1) as (Ld & _ & Ly & Le & Lw & _).
    destruct (run_lengths solve n o2 o2' _ _ y' e' w' W2 Hx' HR2) as (_ & _ & Ly' & Le' & Lw' & _). rewrite Lx' in *.
    destruct (C65_run_follows_the_recursion solve rng c1 kw1 n o1 o1' d x y e w Hrng Hk1 Hn1 Ho1 Ha1 Hc1 Hx HR1) as (S1 & P1).
    destruct (C65_run_follows_the_recursion solve rng c2 kw2 n o2 o2' _ _ y' e' w' Hrng Hk2 Hn2 Ho2 Ha2 Hc2 Hx' HR2) as (S2 & P2). rewrite Lx' in P2.
    replace (fun k => nth k (weigh cs d) 0) with (fun k => nth k cs 0 * nth k d 0) in P2 by (extensionality k; symmetry; apply weigh_nth; lia).
    replace (fun k i => nth i (nth k (weigh_rows cs x) []) 0) with (fun k i => nth k cs 0 * nth i (nth k x []) 0) in P2 by (extensionality k; extensionality i; symmetry; apply weigh_rows_nth; exact Lc).
    apply HP in P2. destruct (C65_recursion_determines c1 kw1 n (length x) _ _ _ _ _ _ _ _ P2 P1) as (T1 & T2); [intros i Hi; rewrite S1, S2, HW; reflexivity|].
    assert (RW : forall k, (k <= length x)%nat -> nth k (w' ++ [o_w o2']) [] = nth k (w ++ [o_w o1']) []).
    { intros k Hk. pose proof (rows_len solve n o2 o2' _ _ y' e' w' k W2 Hx' HR2 ltac:(lia)) as L2. pose proof (rows_len solve n o1 o1' _ _ y e w k W1 Hx HR1 Hk) as L1.
      apply (nth_ext _ _ 0 0); [congruence|]. intros j Hj. apply T2; [exact Hk|congruence]. }
    split; [|split; [|split]].
    - apply (nth_ext _ _ 0 0); [rewrite weigh_length; lia|]. intros k Hk. rewrite weigh_nth by lia. destruct (T1 k ltac:(lia)) as (<- & _). specialize (Hc k ltac:(lia)). field. exact Hc.
    - apply (nth_ext _ _ 0 0); [rewrite weigh_length; lia|]. intros k Hk. rewrite weigh_nth by lia. destruct (T1 k ltac:(lia)) as (_ & <-). specialize (Hc k ltac:(lia)). field. exact Hc.
    - apply (nth_ext _ _ [] []); [congruence|]. intros k Hk. pose proof (RW k ltac:(lia)) as E. rewrite !app_nth1 in E by lia. exact E.
    - pose proof (RW (length x) (le_n _)) as E. rewrite app_nth2 in E by lia. rewrite app_nth2 in E by lia. rewrite Lw, Lw', !Nat.sub_diag in E. exact E.
  Qed.

  (** *** C127: the signs of individual samples do not matter *)
  Theorem C127_sign_flips : forall rng c (kw : kwargs R) n (o o1 o2 : obj) cs d x y e w y' e' w',
    blind_to_signs c = true -> rng_ok rng -> sane_kw kw -> kw_n kw = Some (Z.of_nat n) -> new_filter rng c kw = Ok o -> (c = KAP -> good_solver solve) ->
    rows_of n x -> length cs = length x -> (forall s, In s cs -> s = 1 \/ s = -1) ->
    run d x o = (o1, Ok (y, e, w)) -> run (weigh cs d) (weigh_rows cs x) o = (o2, Ok (y', e', w')) ->
    y' = weigh cs y /\ e' = weigh cs e /\ w' = w /\ o_w o2 = o_w o1.
  Proof.
    intros rng c kw n o o1 o2 cs d x y e w y' e' w' Hcl Hrng Hkw Hn Ho Hap Hx Lc Hs HR1 HR2.
    assert (Hoc : c = KOCNLMS -> kw_mem kw <> Some 1%nat) by (intros ->; discriminate Hcl).
    assert (H1 : forall k, (k < length x)%nat -> nth k cs 0 * nth k cs 0 = 1) by (intros k Hk; destruct (Hs (nth k cs 0)) as [-> | ->]; [apply nth_In; lia|ring|ring]).
    apply (transfer rng c c kw kw n o o o1 o2 cs d x); auto.
    - intros k Hk E. specialize (H1 k Hk). rewrite E in H1. lra.
    - intros y0 e0 W P. apply (flipped kw n (length x) (fun k => nth k cs 0) (fun k => nth k d 0) (fun k i => nth i (nth k x []) 0) y0 e0 W c Hcl H1 P).
  Qed.

  (** *** SSLMS: nor do their sizes; NLMS with eps = 0: the same *)
  Theorem C127_SSLMS : forall rng (kw : kwargs R) n (o o1 o2 : obj) cs d x y e w y' e' w',
    rng_ok rng -> sane_kw kw -> kw_n kw = Some (Z.of_nat n) -> new_filter rng KSSLMS kw = Ok o ->
    rows_of n x -> length cs = length x -> (forall s, In s cs -> s <> 0) ->
    run d x o = (o1, Ok (y, e, w)) -> run (weigh cs d) (weigh_rows cs x) o = (o2, Ok (y', e', w')) ->
    y' = weigh cs y /\ e' = weigh cs e /\ w' = w /\ o_w o2 = o_w o1.
  Proof.
    intros rng kw n o o1 o2 cs d x y e w y' e' w' Hrng Hkw Hn Ho Hx Lc Hs HR1 HR2.
    assert (H1 : forall k, (k < length x)%nat -> nth k cs 0 <> 0) by (intros k Hk; apply Hs, nth_In; lia).
    apply (transfer rng KSSLMS KSSLMS kw kw n o o o1 o2 cs d x); auto; try discriminate.
    intros y0 e0 W P. apply (scaled_SSLMS kw n (length x) (fun k => nth k cs 0) (fun k => nth k d 0) (fun k i => nth i (nth k x []) 0) y0 e0 W H1 P).
  Qed.
  Theorem C127_NLMS : forall rng (kw : kwargs R) n (o o1 o2 : obj) cs d x y e w y' e' w',
    rng_ok rng -> sane_kw kw -> kw_n kw = Some (Z.of_nat n) -> kw_eps kw = Some 0 -> new_filter rng KNLMS kw = Ok o ->
    rows_of n x -> (forall row, In row x -> normsq row <> 0) -> length cs = length x -> (forall s, In s cs -> s <> 0) ->
    run d x o = (o1, Ok (y, e, w)) -> run (weigh cs d) (weigh_rows cs x) o = (o2, Ok (y', e', w')) ->
    y' = weigh cs y /\ e' = weigh cs e /\ w' = w /\ o_w o2 = o_w o1.
  Proof.
    intros rng kw n o o1 o2 cs d x y e w y' e' w' Hrng Hkw Hn He Ho Hx Hnz Lc Hs HR1 HR2.
    assert (H1 : forall k, (k < length x)%nat -> nth k cs 0 <> 0) by (intros k Hk; apply Hs, nth_In; lia).
    apply (transfer rng KNLMS KNLMS kw kw n o o o1 o2 cs d x); auto; try discriminate.
    intros y0 e0 W P. apply (scaled_NLMS kw n (length x) (fun k => nth k cs 0) (fun k => nth k d 0) (fun k i => nth i (nth k x []) 0) y0 e0 W H1); [rewrite He; reflexivity| |exact P].
    intros k Hk. pose proof (nth_rows _ _ _ Hx Hk) as Lr. specialize (Hnz (nth k x []) (nth_In _ _ Hk)). unfold normsq in Hnz. rewrite (Rdot_sumn n) in Hnz by exact Lr. exact Hnz.
  Qed.

  (** *** NLMS is LMS on samples divided by sqrt (eps + |x|^2) *)
  Theorem C127_NLMS_is_normalised_LMS : forall rng (kwN kwL : kwargs R) n (oN oL oN' oL' : obj) eps mu d x y e w y' e' w',
    rng_ok rng -> sane_kw kwN -> sane_kw kwL -> kw_n kwN = Some (Z.of_nat n) -> kw_n kwL = Some (Z.of_nat n) ->
    kw_mu kwN = Some mu -> kw_mu kwL = Some mu -> kw_eps kwN = Some eps ->
    new_filter rng KNLMS kwN = Ok oN -> new_filter rng KLMS kwL = Ok oL -> o_w oL = o_w oN ->
    rows_of n x -> (forall row, In row x -> 0 < eps + normsq row) ->
    let cs := map (fun row => / sqrt (eps + normsq row)) x in
    run d x oN = (oN', Ok (y, e, w)) -> run (weigh cs d) (weigh_rows cs x) oL = (oL', Ok (y', e', w')) ->
    y' = weigh cs y /\ e' = weigh cs e /\ w' = w /\ o_w oL' = o_w oN'.
  Proof.
    intros rng kwN kwL n oN oL oN' oL' eps mu d x y e w y' e' w' Hrng HkN HkL HnN HnL HmN HmL He HoN HoL HW Hx Hpos cs HR1 HR2.
    assert (Hcs : forall k, (k < length x)%nat -> nth k cs 0 = / sqrt (eps + normsq (nth k x [])) /\ 0 < eps + normsq (nth k x [])).
    { intros k Hk. unfold cs. rewrite (map_nth_lt _ _ _ []) by exact Hk. split; [reflexivity|]. apply Hpos, nth_In. exact Hk. }
    apply (transfer rng KNLMS KLMS kwN kwL n oN oL oN' oL' cs d x); auto; try discriminate.
    - unfold cs. apply map_length.
    - intros k Hk. destruct (Hcs k Hk) as (-> & H). apply Rinv_neq_0_compat. pose proof (sqrt_lt_R0 _ H). lra.
    - intros y0 e0 W P. apply (scaled_LMS_NLMS kwN n (length x) (fun k => nth k cs 0) (fun k => nth k d 0) (fun k i => nth i (nth k x []) 0) y0 e0 W kwL); [|cbn [rate]; rewrite HmN, HmL; reflexivity|exact P].
      intros k Hk. destruct (Hcs k Hk) as (-> & H). rewrite He. cbn [par]. pose proof (nth_rows _ _ _ Hx Hk) as Lr. unfold normsq in *. rewrite (Rdot_sumn n) in * by exact Lr. unfold dotn. set (s := eps + sumn n _) in *.
      rewrite <- Rinv_mult, sqrt_sqrt by lra. field. lra.
  Qed.

  (** *** LMS: factor c multiplies the step of the sample by c^2 *)
  Theorem C127_LMS : forall rng (kw : kwargs R) n (o o' : obj) mu cs d x y e w,
    rng_ok rng -> sane_kw kw -> kw_n kw = Some (Z.of_nat n) -> kw_mu kw = Some mu -> new_filter rng KLMS kw = Ok o ->
    rows_of n x -> length cs = length x -> (forall s, In s cs -> s <> 0) -> length d = length x ->
    run (weigh cs d) (weigh_rows cs x) o = (o', Ok (y, e, w)) ->
    forall k, (k < length x)%nat ->
      let wk := nth k (w ++ [o_w o']) [] in
      nth k y 0 = nth k cs 0 * Rdot wk (nth k x []) /\
      nth (S k) (w ++ [o_w o']) [] = vadd wk (vsc (mu * nth k cs 0 ^ 2 * (nth k d 0 - Rdot wk (nth k x []))) (nth k x [])).
  Proof.
    intros rng kw n o o' mu cs d x y e w Hrng Hkw Hn Hmu Ho Hx Lc Hs Ld HR k Hk wk.
    pose proof (new_filter_wf rng KLMS kw n o Hrng Hkw Hn Ho) as W1. pose proof (weigh_rows_of n cs x Lc Hx) as Hx'. pose proof (weigh_rows_length cs x Lc) as Lx'.
    destruct (C65_run_follows_the_recursion solve rng KLMS kw n o o' _ _ y e w Hrng Hkw Hn Ho ltac:(discriminate) ltac:(discriminate) Hx' HR) as (_ & P). rewrite Lx' in P.
    replace (fun k => nth k (weigh cs d) 0) with (fun k => nth k cs 0 * nth k d 0) in P by (extensionality j; symmetry; apply weigh_nth; lia).
    replace (fun k i => nth i (nth k (weigh_rows cs x) []) 0) with (fun k i => nth k cs 0 * nth i (nth k x []) 0) in P by (extensionality j; extensionality i; symmetry; apply weigh_rows_nth; exact Lc).
    assert (H1 : forall k, (k < length x)%nat -> nth k cs 0 <> 0) by (intros j Hj; apply Hs, nth_In; lia).
    destruct (scaled_LMS kw n (length x) (fun k => nth k cs 0) (fun k => nth k d 0) (fun k i => nth i (nth k x []) 0) _ _ _ H1 P) as (A & B). cbv beta in A, B.
    pose proof (nth_rows _ _ _ Hx Hk) as Lr. pose proof (rows_len solve n o o' _ _ y e w k W1 Hx' HR ltac:(lia)) as L1. pose proof (rows_len solve n o o' _ _ y e w (S k) W1 Hx' HR ltac:(lia)) as L2. fold wk in L1.
    assert (HD : dotn n (fun i => nth i (nth k (w ++ [o_w o']) []) 0) (fun i => nth i (nth k x []) 0) = Rdot wk (nth k x [])) by (rewrite (Rdot_sumn n) by assumption; reflexivity).
    split; [rewrite A, HD by exact Hk; reflexivity|]. apply (nth_ext _ _ 0 0); [rewrite L2; symmetry; apply vadd_length; [exact L1|rewrite vsc_length; exact Lr]|].
    intros i Hi. rewrite B by (exact Hk || congruence). rewrite HD, nth_vadd, nth_vsc by (rewrite vsc_length; congruence). cbn [rate]. rewrite Hmu. cbn [par]. fold wk. reflexivity.
  Qed.

  (** *** RLS: factor c weighs the sample by c^2 in the least-squares problem *)
  Theorem C127_RLS : forall rng (kw : kwargs R) n (o o' : obj) eps R0 cs d x y e w,
    rng_ok rng -> sane_kw kw -> kw_n kw = Some (Z.of_nat n) -> new_filter rng KRLS kw = Ok o -> o_ext o = XRLS eps R0 -> 0 < eps -> 0 < o_mu o ->
    rows_of n x -> length cs = length x -> length d = length x ->
    run (weigh cs d) (weigh_rows cs x) o = (o', Ok (y, e, w)) ->
    forall k, (k <= length x)%nat ->
      let cost v := sumn k (fun i => o_mu o ^ (k - 1 - i) * nth i cs 0 ^ 2 * (nth i d 0 - Rdot v (nth i x [])) ^ 2) + o_mu o ^ k * eps * distsq v (o_w o) in
      length (nth k (w ++ [o_w o']) []) = n /\ forall v, length v = n -> v <> nth k (w ++ [o_w o']) [] -> cost (nth k (w ++ [o_w o']) []) < cost v.
  Proof.
    intros rng kw n o o' eps R0 cs d x y e w Hrng Hkw Hn Ho HE Heps Hmu Hx Lc Ld HR k Hk cost.
    pose proof (weigh_rows_of n cs x Lc Hx) as Hx'. pose proof (weigh_rows_length cs x Lc) as Lx'.
    destruct (C21_least_squares solve rng kw n o o' eps R0 _ _ y e w Hrng Hkw Hn Ho HE Heps Hmu Hx' HR k ltac:(lia)) as (L & HB). split; [exact L|].
    assert (EC : forall v, length v = n -> ls_cost (o_mu o) eps (o_w o) (weigh cs d) (weigh_rows cs x) k v = cost v).
    { intros v Lv. unfold ls_cost, cost. f_equal. apply sumn_ext. intros i Hi. rewrite weigh_nth by lia.
      assert (HD : Rdot v (nth i (weigh_rows cs x) []) = nth i cs 0 * Rdot v (nth i x [])).
      { pose proof (nth_rows n x i Hx ltac:(lia)) as Lr. pose proof (nth_rows n (weigh_rows cs x) i Hx' ltac:(lia)) as Lr'. rewrite !(Rdot_sumn n) by assumption. rewrite <- sumn_scal. apply sumn_ext. intros j Hj. rewrite weigh_rows_nth by exact Lc. ring. }
      rewrite HD. ring. }
    unfold wrow in *. intros v Lv Hv. rewrite <- (EC v Lv), <- (EC _ L). apply HB; assumption.
  Qed.
End Program.

(** ** The other three classes do see the sign of a single sample *)
Section Refuted.
  Local Open Scope Q_scope.
  #[local] Instance Qu : Num Q := QNum (fun _ _ => None).
  (** kw for the counterexample: one weight, at 0; step 1; memory 2 for OCNLMS *)
  Definition sign_kw (c : kind) : kwargs Q := kwq 1 1 [0] (match c with KOCNLMS => Some 2%nat | _ => None end) None.
  (** the sample (1, [1]) is fed as (-1, [-1]); the final weights are not the same *)
  Theorem C127_signs_refuted : forall c, blind_to_signs c = false ->
    exists (o o1 o2 : obj Q) r1 r2, new_filter rng0 c (sign_kw c) = Ok o /\
      run [1; 2; 3] [[1]; [1]; [2]] o = (o1, Ok r1) /\ run [-(1); 2; 3] [[-(1)]; [1]; [2]] o = (o2, Ok r2) /\
      ~ nth 0 (o_w o2) 0 == nth 0 (o_w o1) 0.
  Proof.
    intros c Hc. exists (get_ok obj0 (new_filter rng0 c (sign_kw c))).
    destruct c; try discriminate; eexists _, _, _, _; (split; [vm_compute; reflexivity|]); (split; [vm_compute; reflexivity|]); (split; [vm_compute; reflexivity|]); vm_compute; discriminate.
  Qed.
End Refuted.

(** ** The hypotheses can be met, for every class *)
Section Ok.
  #[local] Hint Extern 0 (Num R) => exact (RNum rsolve) : typeclass_instances.
  Notation obj := (obj R).
  Example C127_hypotheses : forall c, let x : list rvec := [[1; 2]; [3; 4]] in let cs : rvec := [1; -1] in
    rng_ok (T := R) zrng /\ sane_kw (rec_kw c) /\ good_solver rsolve /\ rows_of 2 x /\ length cs = length x /\
    (forall s, In s cs -> s = 1 \/ s = -1) /\ (forall s, In s [2; -3] -> s <> 0) /\ (forall row, In row x -> 0 < 0 + normsq row) /\
    weigh [2; -3] [1; 2] = [2 * 1; -3 * 2] /\ weigh_rows [2; -3] x = [[2 * 1; 2 * 2]; [-3 * 3; -3 * 4]] /\
    exists o : obj, new_filter zrng c (rec_kw c) = Ok o /\
      forall cs', length cs' = 2%nat -> exists o' r, run (weigh cs' [1; 2]) (weigh_rows cs' x) o = (o', Ok r).
  Proof.
    intros c x cs. destruct (rec_new c 0) as (o & _ & Ho & _).
    split; [intros k; apply repeat_length|]. split; [split; intros m E; destruct c; try discriminate E; injection E as <-; lia|]. split; [exact rsolve_good|].
    split; [repeat constructor|]. split; [reflexivity|].
    split; [intros s [<-|[<-|[]]]; auto|]. split; [intros s [<-|[<-|[]]]; lra|].
    split; [intros row [<-|[<-|[]]]; unfold normsq; cbn; lra|].
    split; [reflexivity|]. split; [reflexivity|].
    exists o. split; [exact Ho|]. intros cs' Hl.
    assert (Hx' : rows_of 2 (weigh_rows cs' x)) by (apply weigh_rows_of; [exact Hl|repeat constructor]).
    destruct (wide_runs c (rec_kw c) o 2 (weigh cs' [1; 2]) (weigh_rows cs' x)) as (_ & o2 & y2 & e2 & w2 & E); auto;
      [rewrite weigh_length, weigh_rows_length by exact Hl; reflexivity|intros EE; pose proof (weigh_rows_length cs' x Hl) as LL; rewrite EE in LL; discriminate LL|eauto].
  Qed.
End Ok.
