(** C111: silence (inputs that are all zero), before and between the data; C112: inputs that are always zero. *)
From Coq Require Import QArith Reals Lra Psatz FunctionalExtensionality.
From Verif Require Import Py Num NumQ Numpy Filters Registry Spec StructProofs RunProofs Reach RVec RFilter Steps RMat PropsRun PropsStability PropsAlgebra PropsAP PropsAPConverge PropsAPMem PropsRecursion PropsLearning.
Open Scope R_scope.

(** an RLS filter after N0 silent samples: the regularisation has been forgotten N0 times *)
Definition rewound (c : kind) (N0 : nat) (kw : kwargs R) : kwargs R :=
  match c with
  | KRLS => mkKw (kw_n kw) (kw_mu kw) (kw_w kw) (Some (par (kw_eps kw) (1 / 1000) * rate KRLS kw ^ N0)) (kw_ro kw) (kw_a kw) (kw_lambd kw) (kw_alpha kw) (kw_order kw) (kw_ifc kw) (kw_mem kw) (kw_other kw)
  | _ => kw
  end.

Lemma dotn_zero_r n a b : (forall i, (i < n)%nat -> b i = 0) -> dotn n a b = 0.
Proof. intros H. unfold dotn. rewrite (sumn_ext n _ (fun _ => 0)); [apply sumn_0|]. intros i Hi. rewrite H by exact Hi. ring. Qed.
Lemma dotn_zero_l n a b : (forall i, (i < n)%nat -> a i = 0) -> dotn n a b = 0.
Proof. intros H. unfold dotn. rewrite (sumn_ext n _ (fun _ => 0)); [apply sumn_0|]. intros i Hi. rewrite H by exact Hi. ring. Qed.
Lemma sumn_zero n f : (forall i, (i < n)%nat -> f i = 0) -> sumn n f = 0.
Proof. intros H. rewrite (sumn_ext n _ (fun _ => 0)); [apply sumn_0|exact H]. Qed.

Lemma inverse_symmetric K (A G : nat -> nat -> R) : (forall a b, A a b = A b a) ->
  (forall a b, (a < K)%nat -> (b < K)%nat -> sumn K (fun l => A a l * G l b) = delta a b) ->
  forall a b, (a < K)%nat -> (b < K)%nat -> G a b = G b a.
Proof.
  intros HA H m b Hm Hb.
  assert (E1 : sumn K (fun a => G a m * sumn K (fun l => A a l * G l b)) = G b m).
  { rewrite (sumn_ext K _ (fun a => (if Nat.eqb b a then 1 else 0) * G a m)); [exact (sumn_delta K b (fun a => G a m) Hb)|].
    intros a Ha. rewrite H by auto. unfold delta. rewrite Nat.eqb_sym. ring. }
  assert (E2 : sumn K (fun a => G a m * sumn K (fun l => A a l * G l b)) = G m b).
  { rewrite (sumn_ext K _ (fun a => sumn K (fun l => A l a * G a m * G l b))).
    - rewrite sumn_swap. rewrite (sumn_ext K _ (fun l => (if Nat.eqb m l then 1 else 0) * G l b)); [exact (sumn_delta K m (fun l => G l b) Hm)|].
      intros l Hl. rewrite sumn_scal_r, H by auto. unfold delta. rewrite Nat.eqb_sym. reflexivity.
    - intros a Ha. rewrite <- sumn_scal. apply sumn_ext. intros l Hl. rewrite (HA a l). ring. }
  congruence.
Qed.

(** ** Leading silence, on the level of the recursions *)
Section Lead.
  Variables (n N0 N : nat) (kw : kwargs R) (d : nat -> R) (x : nat -> nat -> R) (y e : nat -> R) (W : nat -> nat -> R).
  Hypothesis Hsil : forall k i, (k < N0)%nat -> (i < n)%nat -> x k i = 0.
  Let d' k := d (N0 + k)%nat.
  Let x' k i := x (N0 + k)%nat i.
  Let y' k := y (N0 + k)%nat.
  Let e' k := e (N0 + k)%nat.
  Let W' k i := W (N0 + k)%nat i.

  Lemma vb_eq k i : (i < n)%nat -> vbefore x' k i = vbefore x (N0 + k) i.
  Proof.
    intros Hi. destruct k as [|k]; cbn [vbefore].
    - rewrite Nat.add_0_r. destruct N0 as [|m] eqn:E; [reflexivity|]. cbn [vbefore]. symmetry. apply Hsil; [lia|exact Hi].
    - rewrite Nat.add_succ_r. reflexivity.
  Qed.
  Lemma be_eq k : (0 < k)%nat -> before e' k = before e (N0 + k).
  Proof. intros Hk. destruct k as [|k]; [lia|]. rewrite Nat.add_succ_r. reflexivity. Qed.
  Lemma vb0 i : (i < n)%nat -> vbefore x N0 i = 0.
  Proof. intros Hi. rewrite <- (Nat.add_0_r N0), <- vb_eq by exact Hi. reflexivity. Qed.

  Lemma ago_x k i j : (i < n)%nat -> ago (fun t => x t i) (N0 + k) j = ago (fun t => x' t i) k j.
  Proof.
    intros Hi. unfold ago, x'. destruct (Nat.leb_spec j k).
    - rewrite (proj2 (Nat.leb_le j (N0 + k))) by lia. f_equal. lia.
    - destruct (Nat.leb_spec j (N0 + k)); [|reflexivity]. apply Hsil; [lia|exact Hi].
  Qed.
  Lemma ago_d k j : (j <= k)%nat -> ago d (N0 + k) j = ago d' k j.
  Proof. intros H. unfold ago, d'. rewrite (proj2 (Nat.leb_le j k)), (proj2 (Nat.leb_le j (N0 + k))) by lia. f_equal. lia. Qed.
  Lemma ago_x_late k i j : (i < n)%nat -> (k < j)%nat -> ago (fun t => x' t i) k j = 0.
  Proof. intros Hi H. unfold ago. rewrite (proj2 (Nat.leb_gt j k)) by lia. reflexivity. Qed.

  Lemma lead_shift c : published c kw n (N0 + N) d x y e W -> c <> KOCNLMS ->
    (forall k, (k < N0)%nat -> y k = 0 /\ e k = d k) /\
    (forall k i, (k <= N0)%nat -> (i < n)%nat -> W k i = W 0%nat i) /\
    published c (rewound c N0 kw) n N d' x' y' e' W'.
  Proof.
    intros HP Hc.
    assert (HL : ((forall k, (k < N0 + N)%nat -> e k = d k - y k) /\ forall k, (k < N0 + N)%nat -> y k = dotn n (W k) (x k))).
    { unfold published in HP. destruct c; try exact (proj1 HP). contradiction. }
    destruct HL as (HE & HY).
    assert (S1 : forall k, (k < N0)%nat -> y k = 0 /\ e k = d k).
    { intros k Hk. assert (Z : y k = 0) by (rewrite HY by lia; apply dotn_zero_r; intros; apply Hsil; assumption). split; [exact Z|]. rewrite HE, Z by lia. ring. }
    assert (HW : (forall k i, (k < N0)%nat -> (i < n)%nat -> W (S k) i = W k i) -> forall k i, (k <= N0)%nat -> (i < n)%nat -> W k i = W 0%nat i).
    { intros H. induction k as [|k IH]; intros i Hk Hi; [reflexivity|]. rewrite H by lia. apply IH; [lia|exact Hi]. }
    assert (LIN : (forall k, (k < N)%nat -> e' k = d' k - y' k) /\ forall k, (k < N)%nat -> y' k = dotn n (W' k) (x' k)).
    { split; intros k Hk; [apply HE; lia|unfold y'; rewrite HY by lia; reflexivity]. }
    assert (MV : forall g g' : nat -> nat -> R, (forall k i, (k < N)%nat -> (i < n)%nat -> g (N0 + k)%nat i = g' k i) ->
      (forall k i, (k < N0 + N)%nat -> (i < n)%nat -> W (S k) i = W k i + g k i) -> forall k i, (k < N)%nat -> (i < n)%nat -> W' (S k) i = W' k i + g' k i).
    { intros g g' Hg H k i Hk Hi. unfold W'. rewrite Nat.add_succ_r, H by lia. rewrite Hg by assumption. reflexivity. }
    split; [exact S1|].
    assert (DX : forall k, dotn n (x (N0 + k)%nat) (x (N0 + k)%nat) = dotn n (x' k) (x' k)) by reflexivity.
    unfold published in *. cbv zeta in *. destruct c; cbn [rewound]; try contradiction; clear Hc.
    - (* AP *) destruct HP as (_ & G & HG & HM).
      assert (SY : forall k a b, (k < N0 + N)%nat -> (a < par (kw_order kw) 5)%nat -> (b < par (kw_order kw) 5)%nat -> G k a b = G k b a).
      { intros k a b Hk Ha Hb. apply (inverse_symmetric (par (kw_order kw) 5%nat) (fun a l => sumn n (fun i => ago (fun t => x t i) k a * ago (fun t => x t i) k l) + par (kw_ifc kw) (1 / 1000) * delta a l)); auto.
        intros a0 b0. f_equal; [apply sumn_ext; intros; ring|]. unfold delta. rewrite Nat.eqb_sym. reflexivity. }
      assert (ZG : forall k a b, (k < N0 + N)%nat -> (a < par (kw_order kw) 5)%nat -> (b < par (kw_order kw) 5)%nat -> (forall i, (i < n)%nat -> ago (fun t => x t i) k b = 0) -> a <> b -> G k a b = 0).
      { intros k a b Hk Ha Hb Hz Hab. rewrite SY by assumption.
        assert (D : forall c0, (c0 < par (kw_order kw) 5)%nat -> par (kw_ifc kw) (1 / 1000) * G k b c0 = delta b c0).
        { intros c0 Hc0. rewrite <- (HG k b c0 Hk Hb Hc0). rewrite (sumn_ext _ _ (fun l => (if Nat.eqb b l then 1 else 0) * (par (kw_ifc kw) (1 / 1000) * G k l c0))).
          - rewrite (sumn_delta _ b (fun l => par (kw_ifc kw) (1 / 1000) * G k l c0)) by exact Hb. reflexivity.
          - intros l Hl. rewrite (sumn_zero n) by (intros i Hi; rewrite Hz by exact Hi; ring). unfold delta. ring. }
        pose proof (D b Hb) as D1. pose proof (D a Ha) as D2. unfold delta in D1, D2. rewrite Nat.eqb_refl in D1. rewrite (proj2 (Nat.eqb_neq b a)) in D2 by auto.
        apply Rmult_integral in D2 as [D2|D2]; [rewrite D2 in D1; lra|exact D2]. }
      split; [|split; [exact LIN|]].
      + apply HW. intros k i Hk Hi. rewrite HM by lia.
        rewrite (sumn_zero (par (kw_order kw) 5%nat)); [ring|]. intros a Ha.
        replace (ago (fun t => x t i) k a) with 0; [ring|]. unfold ago. destruct (a <=? k)%nat; [symmetry; apply Hsil; lia|reflexivity].
      + exists (fun k => G (N0 + k)%nat). split.
        * intros k a b Hk Ha Hb. rewrite <- (HG (N0 + k)%nat a b) by (assumption || lia). apply sumn_ext. intros l Hl. f_equal. f_equal.
          apply sumn_ext. intros i Hi. rewrite !ago_x by exact Hi. reflexivity.
        * eapply MV; [|exact HM]. intros k i Hk Hi. cbv beta. f_equal. apply sumn_ext. intros a Ha.
          destruct (Nat.le_gt_cases a k) as [Hak|Hak].
          2: { rewrite (ago_x k i a Hi), (ago_x_late k i a Hi Hak). ring. }
          rewrite (ago_x k i a Hi). f_equal. apply sumn_ext. intros b Hb. destruct (Nat.le_gt_cases b k) as [Hbk|Hbk].
          -- rewrite (ago_d k b Hbk). f_equal. f_equal. apply sumn_ext. intros i0 Hi0. rewrite (ago_x k i0 b Hi0). reflexivity.
          -- rewrite (ZG (N0 + k)%nat a b) by (try assumption; try lia; intros i0 Hi0; rewrite (ago_x k i0 b Hi0); apply ago_x_late; assumption). ring.
    - (* GMCC *) destruct HP as (_ & HM). split; [|split; [exact LIN|]].
      + apply HW. intros k i Hk Hi. rewrite HM by lia. rewrite (Hsil k i Hk Hi). ring.
      + eapply MV; [|exact HM]. reflexivity.
    - (* GNGD *) destruct HP as (_ & m & H0 & HR & HM). split; [|split; [exact LIN|]].
      + apply HW. intros k i Hk Hi. rewrite HM by lia. rewrite (Hsil k i Hk Hi). ring.
      + assert (M0 : forall k, (k <= N0)%nat -> m k = m 0%nat).
        { induction k as [|k IH]; intros Hk; [reflexivity|]. rewrite HR by lia. rewrite (dotn_zero_l n (x k)) by (intros; apply Hsil; lia). rewrite IH by lia. unfold Rdiv. ring. }
        exists (fun k => m (N0 + k)%nat). split; [rewrite Nat.add_0_r, M0 by lia; exact H0|]. split.
        * intros k Hk. rewrite Nat.add_succ_r, HR by lia. rewrite (dotn_eq n (x' k) (vbefore x' k) (x (N0 + k)%nat) (vbefore x (N0 + k))) by (intros; try apply vb_eq; auto).
          rewrite (dotn_eq n (vbefore x' k) (vbefore x' k) (vbefore x (N0 + k)) (vbefore x (N0 + k))) by (intros; apply vb_eq; auto).
          destruct k as [|k]; [|rewrite be_eq by lia; reflexivity]. rewrite Nat.add_0_r. rewrite (dotn_zero_r n (x N0) (vbefore x N0)) by apply vb0. unfold Rdiv. ring.
        * eapply MV; [|exact HM]. intros k i Hk Hi. cbv beta. rewrite Nat.add_succ_r. reflexivity.
    - destruct HP as (_ & HM). split; [|split; [exact LIN|]].
      + apply HW. intros k i Hk Hi. rewrite HM by lia. rewrite (Hsil k i Hk Hi). ring.
      + eapply MV; [|exact HM]. reflexivity.
    - destruct HP as (_ & HM). split; [|split; [exact LIN|]].
      + apply HW. intros k i Hk Hi. rewrite HM by lia. rewrite (Hsil k i Hk Hi). ring.
      + eapply MV; [|exact HM]. reflexivity.
    - destruct HP as (_ & HM). split; [|split; [exact LIN|]].
      + apply HW. intros k i Hk Hi. rewrite HM by lia. rewrite (Hsil k i Hk Hi). ring.
      + eapply MV; [|exact HM]. reflexivity.
    - destruct HP as (_ & HM). split; [|split; [exact LIN|]].
      + apply HW. intros k i Hk Hi. rewrite HM by lia. rewrite (Hsil k i Hk Hi). ring.
      + eapply MV; [|exact HM]. reflexivity.
    - destruct HP as (_ & HM). split; [|split; [exact LIN|]].
      + apply HW. intros k i Hk Hi. rewrite HM by lia. rewrite (Hsil k i Hk Hi). ring.
      + eapply MV; [|exact HM]. reflexivity.
    - destruct HP as (_ & HM). split; [|split; [exact LIN|]].
      + apply HW. intros k i Hk Hi. rewrite HM by lia. rewrite (Hsil k i Hk Hi), Rsgn_0. ring.
      + eapply MV; [|exact HM]. reflexivity.
    - (* RLS *) destruct HP as (_ & P & H0 & HR & HM). split; [|split; [exact LIN|]].
      + apply HW. intros k i Hk Hi. rewrite HM by lia. rewrite (sumn_zero n) by (intros j Hj; rewrite (Hsil k j Hk Hj); ring). ring.
      + assert (P0 : forall k i j, (k <= N0)%nat -> (i < n)%nat -> (j < n)%nat -> P k i j = (/ rate KRLS kw) ^ k * P 0%nat i j).
        { induction k as [|k IH]; intros i j Hk Hi Hj; [cbn; ring|]. rewrite HR by lia. rewrite (sumn_zero n (fun a => P k i a * x k a)) by (intros a Ha; rewrite (Hsil k a) by lia; ring).
          rewrite IH by lia. cbn [pow]. unfold Rdiv. ring. }
        exists (fun k => P (N0 + k)%nat). split; [|split].
        * intros i j Hi Hj. rewrite Nat.add_0_r, P0, H0 by lia. cbn [par kw_eps]. rewrite Rinv_mult, pow_inv. ring.
        * intros k i j Hk Hi Hj. rewrite Nat.add_succ_r, HR by lia. reflexivity.
        * eapply MV; [|exact HM]. intros k i Hk Hi. cbv beta. rewrite Nat.add_succ_r. reflexivity.
    - destruct HP as (_ & HM). split; [|split; [exact LIN|]].
      + apply HW. intros k i Hk Hi. rewrite HM by lia. rewrite (Hsil k i Hk Hi), Rsgn_0. ring.
      + eapply MV; [|exact HM]. reflexivity.
    - (* Ang *) destruct HP as (_ & m & phi & H0 & HP0 & HP & HR & HM). split; [|split; [exact LIN|]].
      + apply HW. intros k i Hk Hi. rewrite HM by lia. rewrite (Hsil k i Hk Hi). ring.
      + assert (V0 : forall k i, (k <= N0)%nat -> (i < n)%nat -> vbefore x k i = 0) by (intros [|k] i Hk Hi; [reflexivity|cbn [vbefore]; apply Hsil; lia]).
        assert (PH0 : forall k i, (k <= N0)%nat -> (i < n)%nat -> phi k i = 0).
        { induction k as [|k IH]; intros i Hk Hi; [apply HP0; exact Hi|]. rewrite HP by lia. rewrite IH, V0 by lia. ring. }
        assert (M0 : forall k, (k <= N0)%nat -> m k = m 0%nat).
        { induction k as [|k IH]; intros Hk; [reflexivity|]. rewrite HR by lia. rewrite (dotn_zero_l n) by (intros; apply V0; lia). rewrite IH by lia. ring. }
        exists (fun k => m (N0 + k)%nat), (fun k => phi (N0 + k)%nat). split; [rewrite Nat.add_0_r, M0 by lia; exact H0|].
        split; [intros i Hi; rewrite Nat.add_0_r; apply PH0; lia|]. split; [|split].
        * intros k i Hk Hi. rewrite Nat.add_succ_r, HP by lia. rewrite vb_eq by exact Hi. destruct k as [|k]; [|rewrite be_eq by lia; reflexivity].
          rewrite Nat.add_0_r, vb0 by exact Hi. ring.
        * intros k Hk. rewrite Nat.add_succ_r, HR by lia. rewrite (dotn_eq n (vbefore x' k) (phi (S (N0 + k))) (vbefore x (N0 + k)) (phi (S (N0 + k)))) by (intros; try apply vb_eq; auto). reflexivity.
        * eapply MV; [|exact HM]. intros k i Hk Hi. cbv beta. rewrite Nat.add_succ_r. reflexivity.
    - (* Benveniste *) destruct HP as (_ & m & phi & H0 & HP0 & HP & HR & HM). split; [|split; [exact LIN|]].
      + apply HW. intros k i Hk Hi. rewrite HM by lia. rewrite (Hsil k i Hk Hi). ring.
      + assert (V0 : forall k i, (k <= N0)%nat -> (i < n)%nat -> vbefore x k i = 0) by (intros [|k] i Hk Hi; [reflexivity|cbn [vbefore]; apply Hsil; lia]).
        assert (PH0 : forall k i, (k <= N0)%nat -> (i < n)%nat -> phi k i = 0).
        { induction k as [|k IH]; intros i Hk Hi; [apply HP0; exact Hi|]. rewrite HP by lia. rewrite IH, V0 by lia. ring. }
        assert (M0 : forall k, (k <= N0)%nat -> m k = m 0%nat).
        { induction k as [|k IH]; intros Hk; [reflexivity|]. rewrite HR by lia. rewrite (dotn_zero_l n) by (intros; apply V0; lia). rewrite IH by lia. ring. }
        exists (fun k => m (N0 + k)%nat), (fun k => phi (N0 + k)%nat). split; [rewrite Nat.add_0_r, M0 by lia; exact H0|].
        split; [intros i Hi; rewrite Nat.add_0_r; apply PH0; lia|]. split; [|split].
        * intros k i Hk Hi. rewrite Nat.add_succ_r, HP by lia. rewrite vb_eq by exact Hi.
          rewrite (dotn_eq n (vbefore x' k) (phi (N0 + k)%nat) (vbefore x (N0 + k)) (phi (N0 + k)%nat)) by (intros; try apply vb_eq; auto).
          destruct k as [|k]; [|rewrite be_eq by lia; reflexivity]. rewrite Nat.add_0_r, vb0 by exact Hi. ring.
        * intros k Hk. rewrite Nat.add_succ_r, HR by lia. rewrite (dotn_eq n (vbefore x' k) (phi (S (N0 + k))) (vbefore x (N0 + k)) (phi (S (N0 + k)))) by (intros; try apply vb_eq; auto). reflexivity.
        * eapply MV; [|exact HM]. intros k i Hk Hi. cbv beta. rewrite Nat.add_succ_r. reflexivity.
    - (* Mathews *) destruct HP as (_ & m & H0 & HR & HM). split; [|split; [exact LIN|]].
      + apply HW. intros k i Hk Hi. rewrite HM by lia. rewrite (Hsil k i Hk Hi). ring.
      + assert (M0 : forall k, (k <= N0)%nat -> m k = m 0%nat).
        { induction k as [|k IH]; intros Hk; [reflexivity|]. rewrite HR by lia. rewrite (dotn_zero_r n) by (intros; apply Hsil; lia). rewrite IH by lia. ring. }
        exists (fun k => m (N0 + k)%nat). split; [rewrite Nat.add_0_r, M0 by lia; exact H0|]. split.
        * intros k Hk. rewrite Nat.add_succ_r, HR by lia. rewrite (dotn_eq n (vbefore x' k) (x' k) (vbefore x (N0 + k)) (x (N0 + k)%nat)) by (intros; try apply vb_eq; auto).
          destruct k as [|k]; [|rewrite be_eq by lia; reflexivity]. rewrite Nat.add_0_r. rewrite (dotn_zero_l n (vbefore x N0)) by apply vb0. ring.
        * eapply MV; [|exact HM]. intros k i Hk Hi. cbv beta. rewrite Nat.add_succ_r. reflexivity.
  Qed.
End Lead.


(** ** Specification of C111 and the theorems about the program *)
Section Silence.
  Variable solve : list rvec -> list rvec -> option (list rvec).
  #[local] Hint Extern 0 (Num R) => exact (RNum solve) : typeclass_instances.
  Notation obj := (obj R).

  Lemma vsc_zeros c n : vsc c (repeat 0 n) = repeat 0 n.
  Proof. induction n as [|n IH]; cbn; [reflexivity|]. f_equal; [ring|exact IH]. Qed.
  Lemma vadd_zeros (v : rvec) n : length v = n -> vadd v (repeat 0 n) = v.
  Proof. revert n. induction v as [|a v IH]; intros [|n] H; try discriminate; [reflexivity|]. cbn. f_equal; [ring|apply IH; injection H; auto]. Qed.
  Lemma map_zeros (f : R -> R) n : f 0 = 0 -> map f (repeat 0 n) = repeat 0 n.
  Proof. intros H. induction n as [|n IH]; cbn; congruence. Qed.
  Lemma Rdot_zeros (v : rvec) n : Rdot v (repeat 0 n) = 0.
  Proof. revert n. induction v as [|a v IH]; intros [|n]; try reflexivity. change (Rdot (a :: v) (repeat 0 (S n))) with (a * 0 + Rdot v (repeat 0 n)). rewrite IH. ring. Qed.

  Lemma stateless_zero (s : obj) n e : memoryless s = true -> textbook (o_ext s) (o_mu s) e (repeat 0 n) = Some (repeat 0 n).
  Proof.
    unfold memoryless. destruct (o_ext s); try discriminate; intros _; cbn [textbook]; f_equal; rewrite ?repeat_length, ?vsc_zeros; try reflexivity;
      apply map_zeros; rewrite Rsgn_0; ring.
  Qed.
  Lemma stateless_adapt n (s : obj) d : wf n s -> memoryless s = true -> adapt d (repeat 0 n) s = (s, Ok tt).
  Proof.
    intros Hwf Hs. rewrite (adapt_textbook solve s d (repeat 0 n) (repeat 0 n)).
    - rewrite vadd_zeros by apply Hwf. destruct s; reflexivity.
    - rewrite repeat_length. symmetry. apply Hwf.
    - apply stateless_zero. exact Hs.
  Qed.

  Theorem C111_silent_sample : forall n (o : obj) d, reachable n o -> is_AP o = false -> is_OCNLMS o = false -> (forall eps P, o_ext o = XRLS eps P -> o_mu o <> 0) ->
    exists o', adapt d (repeat 0 n) o = (o', Ok tt) /\ o_w o' = o_w o /\ (memoryless o = true -> o' = o) /\
      snd (predict (repeat 0 n) o) = Ok 0.
  Proof.
    intros n o d Hr H1 H2 H3. pose proof (reachable_wf _ _ Hr) as Hwf. pose proof (proj1 Hwf) as Hw.
    assert (HP : snd (predict (repeat 0 n) o) = Ok 0).
    { rewrite predict_plain by exact H2. rewrite vdot_ok by (rewrite repeat_length; congruence). cbn [snd]. f_equal. apply Rdot_zeros. }
    assert (Hl : length (repeat 0 n) = n) by apply repeat_length.
    destruct (memoryless o) eqn:Es.
    { exists o. rewrite (stateless_adapt n) by assumption. auto. }
    unfold memoryless in Es. destruct (o_ext o) eqn:E; try discriminate; unfold is_AP in H1; unfold is_OCNLMS in H2; rewrite E in *; try discriminate; clear Es H1 H2.
    - (* GNGD *) eexists. split; [exact (adapt_GNGD n o d (repeat 0 n) _ _ _ _ Hwf Hl E)|]. split; [|split; [discriminate|exact HP]].
      cbn [set_w o_w]. etransitivity; [|apply (vadd_zeros (o_w o) n Hw)]. apply (f_equal (vadd (o_w o))). apply vsc_zeros.
    - (* RLS *) assert (Hm : neqb (o_mu o) n0 = false) by (cbn; unfold Reqb; destruct (Req_EM_T _ _) as [Hc|]; [exfalso; eapply H3; [reflexivity|exact Hc]|reflexivity]).
      eexists. split; [exact (adapt_RLS n o d (repeat 0 n) _ _ Hwf Hl E Hm)|]. split; [|split; [discriminate|exact HP]].
      cbn [set_w o_w]. etransitivity; [|apply (vadd_zeros (o_w o) n Hw)]. apply (f_equal (vadd (o_w o))).
      set (P := rls_R _ _ _). assert (HPl : length P = n). { pose proof Hwf as (_ & _ & Hx). rewrite E in Hx. destruct Hx as (Hx1 & Hx2). apply (rls_R_shape (o_mu o) n); auto. }
      assert (Z : forall Q : rmat, map (fun a => a * (d - Rdot (o_w o) (repeat 0 n))) (mv Q (repeat 0 n)) = repeat 0 (length Q)).
      { induction Q as [|r Q IH]; [reflexivity|]. cbn [mv map length repeat]. f_equal; [|exact IH]. change (Rdot r (repeat 0 n) * (d - Rdot (o_w o) (repeat 0 n)) = 0). rewrite Rdot_zeros. ring. }
      transitivity (repeat 0 (length P)); [exact (Z P)|rewrite HPl; reflexivity].
    - eexists. split; [exact (adapt_Ang n o d (repeat 0 n) _ _ _ _ _ _ Hwf Hl E)|]. split; [|split; [discriminate|exact HP]].
      cbn [set_w o_w]. etransitivity; [|apply (vadd_zeros (o_w o) n Hw)]. apply (f_equal (vadd (o_w o))). apply vsc_zeros.
    - eexists. split; [exact (adapt_Benveniste n o d (repeat 0 n) _ _ _ _ _ Hwf Hl E)|]. split; [|split; [discriminate|exact HP]].
      cbn [set_w o_w]. etransitivity; [|apply (vadd_zeros (o_w o) n Hw)]. apply (f_equal (vadd (o_w o))). apply vsc_zeros.
    - eexists. split; [exact (adapt_Mathews n o d (repeat 0 n) _ _ _ _ Hwf Hl E)|]. split; [|split; [discriminate|exact HP]].
      cbn [set_w o_w]. etransitivity; [|apply (vadd_zeros (o_w o) n Hw)]. apply (f_equal (vadd (o_w o))). apply vsc_zeros.
  Qed.

  (** silence inserted anywhere into the series of a filter without memory *)
  Lemma memoryless_adapt_ok n (s : obj) d u : wf n s -> length u = n -> memoryless s = true ->
    exists s', adapt d u s = (s', Ok tt) /\ wf n s' /\ memoryless s' = true.
  Proof.
    intros Hwf Hu Hm. destruct (textbook (o_ext s) (o_mu s) (d - Rdot (o_w s) u) u) as [dw|] eqn:E.
    2: { exfalso. unfold memoryless in Hm. destruct (o_ext s); discriminate. }
    exists (set_w (vadd (o_w s) dw) s). pose proof Hwf as (H1 & H2 & H3). split; [apply adapt_textbook; [congruence|exact E]|]. split; [|exact Hm].
    split; [|split; assumption]. cbn [set_w o_w]. pose proof (textbook_length _ _ _ _ _ E) as Hl. apply map2_length_eq; congruence.
  Qed.
  Lemma silent_traces n ds m d2 x2 (s : obj) : wf n s -> memoryless s = true -> length ds = m ->
    ytrace (ds ++ d2) (repeat (repeat 0 n) m ++ x2) s = repeat 0 m ++ ytrace d2 x2 s /\
    wtrace (ds ++ d2) (repeat (repeat 0 n) m ++ x2) s = repeat (o_w s) m ++ wtrace d2 x2 s /\
    adapt_all (ds ++ d2) (repeat (repeat 0 n) m ++ x2) s = adapt_all d2 x2 s.
  Proof.
    intros Hwf Hm <-. induction ds as [|d ds IH]; [auto|]. destruct IH as (I1 & I2 & I3).
    cbn [app repeat length ytrace wtrace adapt_all]. rewrite (stateless_adapt n) by assumption. cbn [fst]. rewrite I1, I2.
    split; [|split; [reflexivity|]].
    - f_equal. rewrite (pred_out_plain n); [apply Rdot_zeros|exact Hwf|apply repeat_length| |]; unfold memoryless in Hm; unfold is_AP, is_OCNLMS; destruct (o_ext s); auto; discriminate.
    - unfold bind. rewrite (stateless_adapt n) by assumption. exact I3.
  Qed.
  Lemma inserted_traces n ds m d2 x2 : forall d1 x1 (s : obj), wf n s -> memoryless s = true -> length ds = m -> rows_of n x1 -> length d1 = length x1 ->
    exists s' : obj,
    ytrace (d1 ++ d2) (x1 ++ x2) s = ytrace d1 x1 s ++ ytrace d2 x2 s' /\
    wtrace (d1 ++ d2) (x1 ++ x2) s = wtrace d1 x1 s ++ wtrace d2 x2 s' /\
    adapt_all (d1 ++ d2) (x1 ++ x2) s = adapt_all d2 x2 s' /\
    ytrace (d1 ++ ds ++ d2) (x1 ++ repeat (repeat 0 n) m ++ x2) s = ytrace d1 x1 s ++ repeat 0 m ++ ytrace d2 x2 s' /\
    wtrace (d1 ++ ds ++ d2) (x1 ++ repeat (repeat 0 n) m ++ x2) s = wtrace d1 x1 s ++ repeat (o_w s') m ++ wtrace d2 x2 s' /\
    adapt_all (d1 ++ ds ++ d2) (x1 ++ repeat (repeat 0 n) m ++ x2) s = adapt_all d2 x2 s' /\
    length (ytrace d1 x1 s) = length x1 /\ length (wtrace d1 x1 s) = length x1.
  Proof.
    induction d1 as [|d d1 IH]; intros [|u x1] s Hwf Hm Hds Hx Hl; try discriminate.
    - exists s. cbn [app ytrace wtrace]. destruct (silent_traces n ds m d2 x2 s Hwf Hm Hds) as (I1 & I2 & I3). auto 10.
    - inversion Hx as [|? ? Hu Hx']; subst. destruct (memoryless_adapt_ok _ s d u Hwf eq_refl Hm) as (s1 & E & Hwf1 & Hm1).
      destruct (IH x1 s1 Hwf1 Hm1 eq_refl Hx' ltac:(cbn in Hl; lia)) as (s' & A & B & C & D & F & G & L1 & L2). exists s'.
      cbn [app ytrace wtrace adapt_all]. unfold bind. rewrite E. cbn [fst length app]. rewrite A, B, C, D, F, G, L1, L2. auto 10.
  Qed.

  Lemma map2_app_sub (a b c d : rvec) : length a = length c -> map2 Rminus (a ++ b) (c ++ d) = map2 Rminus a c ++ map2 Rminus b d.
  Proof. revert c. induction a as [|h a IH]; intros [|k c] H; try discriminate; [reflexivity|]. cbn. f_equal. apply IH. injection H; auto. Qed.
  Lemma map2_sub_zeros (a : rvec) : map2 Rminus a (repeat 0 (length a)) = a.
  Proof. induction a as [|h a IH]; [reflexivity|]. cbn. f_equal; [ring|exact IH]. Qed.

  Theorem C111_inserted : forall n (o o1 o2 : obj) d1 x1 d2 x2 ds m y e w y' e' w', reachable n o -> memoryless o = true ->
    rows_of n x1 -> rows_of n x2 -> length d1 = length x1 -> length ds = m ->
    run (d1 ++ d2) (x1 ++ x2) o = (o1, Ok (y, e, w)) ->
    run (d1 ++ ds ++ d2) (x1 ++ repeat (repeat 0 n) m ++ x2) o = (o2, Ok (y', e', w')) ->
    o_w o2 = o_w o1 /\
    y' = firstn (length x1) y ++ repeat 0 m ++ skipn (length x1) y /\
    e' = firstn (length x1) e ++ ds ++ skipn (length x1) e /\
    w' = firstn (length x1) w ++ repeat (nth (length x1) (w ++ [o_w o1]) []) m ++ skipn (length x1) w.
  Proof.
    intros n o o1 o2 d1 x1 d2 x2 ds m y e w y' e' w' Hr Hm H1 H2 Hl Hds HR HR'.
    pose proof (reachable_wf _ _ Hr) as Hwf.
    assert (Hx : rowsl n (x1 ++ x2)) by (apply Forall_app; auto).
    assert (Hx' : rowsl n (x1 ++ repeat (repeat 0 n) m ++ x2)).
    { apply Forall_app; split; [exact H1|]. apply Forall_app; split; [|exact H2]. apply Forall_forall. intros u Hu. apply repeat_spec in Hu as ->. apply repeat_length. }
    destruct (run_lengths solve n o o1 _ _ y e w Hwf Hx HR) as (Ld & _ & Ly & _ & Lw & Ey & Ee & Ew & _ & EO).
    destruct (run_lengths solve n o o2 _ _ y' e' w' Hwf Hx' HR') as (_ & _ & _ & _ & _ & Ey' & Ee' & Ew' & _ & EO').
    destruct (inserted_traces n ds m d2 x2 d1 x1 o Hwf Hm Hds H1 Hl) as (s & A & B & C & D & F & G & L1 & L2).
    rewrite !app_length in Ld. assert (Ld2 : length d2 = length x2) by lia.
    assert (Ly2 : length (ytrace d2 x2 s) = length x2) by (pose proof Ly as Ly0; rewrite Ey, A, !app_length in Ly0; lia).
    split; [rewrite EO, EO', C, G; reflexivity|].
    rewrite A in Ey. rewrite B in Ew. rewrite D in Ey'. rewrite F in Ew'.
    assert (F1 : forall (A : Type) (a b : list A), length a = length x1 -> firstn (length x1) (a ++ b) = a /\ skipn (length x1) (a ++ b) = b).
    { intros A0 a b <-. rewrite firstn_app, skipn_app, Nat.sub_diag, firstn_all, skipn_all. cbn. rewrite app_nil_r. auto. }
    rewrite Ey in Ee. rewrite map2_app_sub in Ee by lia.
    rewrite Ey' in Ee'. rewrite map2_app_sub, map2_app_sub in Ee' by (rewrite ?repeat_length; lia).
    rewrite Ey, Ee, Ew. rewrite !(proj1 (F1 _ _ _ L1)), !(proj2 (F1 _ _ _ L1)), !(proj1 (F1 _ _ _ L2)), !(proj2 (F1 _ _ _ L2)).
    assert (L3 : length (map2 Rminus d1 (ytrace d1 x1 o)) = length x1) by (apply map2_length_eq; lia).
    rewrite !(proj1 (F1 _ _ _ L3)), !(proj2 (F1 _ _ _ L3)).
    split; [exact Ey'|]. split; [rewrite Ee'; f_equal; f_equal; rewrite <- Hds; apply map2_sub_zeros|].
    rewrite Ew'. f_equal. f_equal. f_equal.
    destruct x2 as [|u x2], d2 as [|d0 d2]; try discriminate Ld2.
    - cbn [wtrace]. rewrite app_nil_r, app_nth2 by lia. rewrite L2, Nat.sub_diag. cbn. rewrite EO, C. reflexivity.
    - rewrite <- app_assoc. rewrite app_nth2 by lia. rewrite L2, Nat.sub_diag. reflexivity.
  Qed.

  (** silence before the data, every class but OCNLMS *)
  Lemma nth_rep {A} (a dflt : A) m k : (k < m)%nat -> nth k (repeat a m) dflt = a.
  Proof. intros H. apply (repeat_spec m). apply nth_In. rewrite repeat_length. exact H. Qed.
  Lemma app_nth2_plus_gen {A} (a b : list A) m k dflt : length a = m -> nth (m + k) (a ++ b) dflt = nth k b dflt.
  Proof. intros <-. apply app_nth2_plus. Qed.
  Lemma rows_len n (o o' : obj) d x y e w k : wf n o -> rows_of n x -> run d x o = (o', Ok (y, e, w)) -> (k <= length x)%nat -> length (nth k (w ++ [o_w o']) []) = n.
  Proof.
    intros Hwf Hx HR Hk. destruct (run_lengths solve n o o' d x y e w Hwf Hx HR) as (_ & Hne & _). assert (HN : (0 < length x)%nat) by (destruct x; [congruence|cbn; lia]).
    destruct (run_states solve n o o' d x y e w Hwf Hx HR) as (st & _ & HS).
    destruct (Nat.eq_dec k (length x)) as [->|Hne2].
    - destruct (HS (length x - 1)%nat ltac:(lia)) as (H1 & _ & H2 & _ & H3 & _ & _ & H4). replace (S (length x - 1)) with (length x) in H2, H3 by lia. unfold wrow in H3. rewrite <- H3.
      destruct (adapt_ok n (st (length x - 1)%nat) (nth (length x - 1) d 0) (nth (length x - 1) x []) H1 H4) as (o1 & r1 & E1 & Hwf1 & _). rewrite H2 in E1. injection E1 as <- _. apply Hwf1.
    - destruct (HS k ltac:(lia)) as (H1 & _ & _ & H3 & _). unfold wrow in H3. rewrite <- H3. apply H1.
  Qed.
  Lemma rewound_sane c N0 (kw : kwargs R) : sane_kw kw -> sane_kw (rewound c N0 kw).
  Proof. intros H. destruct c; exact H. Qed.
  Lemma rewound_w rng c N0 (kw : kwargs R) (o oz : obj) : new_filter rng c kw = Ok o -> new_filter rng c (rewound c N0 kw) = Ok oz -> o_w oz = o_w o.
  Proof.
    destruct c; cbn [rewound]; try congruence. unfold new_filter. cbn [kw_other kw_n kw_w kw_mu].
    destruct (kw_other kw); [discriminate|]. destruct (existsb _ _); [discriminate|]. destruct (existsb _ _); [discriminate|].
    destruct (kw_n kw) as [z|]; [|discriminate]. destruct (match kw_mu kw with Some _ => _ | None => _ end) as [mu|]; [|discriminate].
    destruct (init_base _ _ _ _ _) as [o0|]; [|discriminate]. cbn [rbind].
    destruct (init_ext KRLS kw _ _) as [x1|]; [|discriminate]. destruct (init_ext KRLS _ _ _) as [x2|]; [|discriminate]. cbn [rmap].
    intros [= <-] [= <-]. reflexivity.
  Qed.

  Theorem C111_leading : forall rng c (kw : kwargs R) n N0 (o oz o1 o2 : obj) d0 d x y e w y' e' w',
    rng_ok rng -> sane_kw kw -> kw_n kw = Some (Z.of_nat n) -> c <> KOCNLMS -> (c = KAP -> good_solver solve) ->
    new_filter rng c kw = Ok o -> new_filter rng c (rewound c N0 kw) = Ok oz -> rows_of n x -> length d0 = N0 ->
    run d x oz = (o1, Ok (y, e, w)) ->
    run (d0 ++ d) (repeat (repeat 0 n) N0 ++ x) o = (o2, Ok (y', e', w')) ->
    y' = repeat 0 N0 ++ y /\ e' = d0 ++ e /\ w' = repeat (o_w o) N0 ++ w /\ o_w o2 = o_w o1.
  Proof.
    intros rng c kw n N0 o oz o1 o2 d0 d x y e w y' e' w' Hrng Hkw Hn Hc Hap Ho Hoz Hx Hl0 HR HR'.
    pose proof (rewound_w rng c N0 kw o oz Ho Hoz) as Hw0.
    pose proof (new_filter_wf rng c kw n o Hrng Hkw Hn Ho) as Hwf.
    assert (Hnz : kw_n (rewound c N0 kw) = Some (Z.of_nat n)) by (destruct c; exact Hn).
    pose proof (new_filter_wf rng c _ n oz Hrng (rewound_sane c N0 kw Hkw) Hnz Hoz) as Hwfz.
    assert (Hx' : rows_of n (repeat (repeat 0 n) N0 ++ x)).
    { apply Forall_app; split; [|exact Hx]. apply Forall_forall. intros u Hu. apply repeat_spec in Hu as ->. apply repeat_length. }
    destruct (C65_run_follows_the_recursion solve rng c kw n o o2 _ _ y' e' w' Hrng Hkw Hn Ho Hap ltac:(congruence) Hx' HR') as (W0' & P').
    destruct (C65_run_follows_the_recursion solve rng c _ n oz o1 _ _ y e w Hrng (rewound_sane c N0 kw Hkw) Hnz Hoz Hap ltac:(congruence) Hx HR) as (W0 & P).
    rewrite app_length, repeat_length in P'.
    assert (Hsil : forall k i, (k < N0)%nat -> (i < n)%nat -> (fun k i => nth i (nth k (repeat (repeat 0 n) N0 ++ x) []) 0) k i = 0)
      by (intros k i Hk Hi; cbv beta; rewrite app_nth1 by (rewrite repeat_length; exact Hk); rewrite nth_rep by exact Hk; apply nth_repeat).
    destruct (lead_shift n N0 (length x) kw _ _ _ _ _ Hsil c P' Hc) as (S1 & S2 & S3).
    destruct (run_lengths solve n o o2 _ _ y' e' w' Hwf Hx' HR') as (Ld' & _ & Ly' & Le' & Lw' & _).
    destruct (run_lengths solve n oz o1 _ _ y e w Hwfz Hx HR) as (Ld & _ & Ly & Le & Lw & _).
    rewrite app_length, repeat_length in Ly', Le', Lw'.
    replace (fun k => nth (N0 + k)%nat (d0 ++ d) 0) with (fun k => nth k d 0) in S3
      by (extensionality k; rewrite app_nth2_plus_gen by exact Hl0; reflexivity).
    replace (fun k i => nth i (nth (N0 + k)%nat (repeat (repeat 0 n) N0 ++ x) []) 0) with (fun k i => nth i (nth k x []) 0) in S3
      by (extensionality k; extensionality i; rewrite app_nth2_plus_gen by apply repeat_length; reflexivity).
    destruct (C65_recursion_determines c _ n (length x) _ _ _ _ _ _ _ _ S3 P) as (T1 & T2).
    { intros i Hi. rewrite S2 by (auto; lia). rewrite W0, W0', Hw0. reflexivity. }
    assert (RW : forall k, (k <= length x)%nat -> nth (N0 + k) (w' ++ [o_w o2]) [] = nth k (w ++ [o_w o1]) []).
    { intros k Hk. apply (nth_ext _ _ 0 0).
      - rewrite (rows_len n o o2 _ _ y' e' w' _ Hwf Hx' HR') by (rewrite app_length, repeat_length; lia). rewrite (rows_len n oz o1 _ _ y e w _ Hwfz Hx HR) by exact Hk. reflexivity.
      - intros i Hi. rewrite (rows_len n o o2 _ _ y' e' w' _ Hwf Hx' HR') in Hi by (rewrite app_length, repeat_length; lia). apply T2; assumption. }
    assert (RW0 : forall k, (k < N0)%nat -> nth k (w' ++ [o_w o2]) [] = o_w o).
    { intros k Hk. rewrite <- W0'. apply (nth_ext _ _ 0 0).
      - rewrite !(rows_len n o o2 _ _ y' e' w' _ Hwf Hx' HR') by (rewrite app_length, repeat_length; lia). reflexivity.
      - intros i Hi. rewrite (rows_len n o o2 _ _ y' e' w' _ Hwf Hx' HR') in Hi by (rewrite app_length, repeat_length; lia). apply S2; [lia|exact Hi]. }
    assert (SPL : forall k, (k < N0 + length x)%nat -> (k < N0)%nat \/ exists j, (k = N0 + j)%nat /\ (j < length x)%nat).
    { intros k Hk. destruct (Nat.lt_ge_cases k N0); [left; assumption|right; exists (k - N0)%nat; lia]. }
    split; [|split; [|split]].
    - apply (nth_ext _ _ 0 0); [rewrite app_length, repeat_length; congruence|]. intros k Hk. rewrite Ly' in Hk. destruct (SPL k Hk) as [H|(j & -> & H)].
      + rewrite app_nth1 by (rewrite repeat_length; exact H). rewrite nth_rep by exact H. apply S1; exact H.
      + rewrite app_nth2_plus_gen by apply repeat_length. apply T1; exact H.
    - apply (nth_ext _ _ 0 0); [rewrite app_length; congruence|]. intros k Hk. rewrite Le' in Hk. destruct (SPL k Hk) as [H|(j & -> & H)].
      + rewrite app_nth1 by lia. destruct (S1 k H) as (_ & ->). apply app_nth1. lia.
      + rewrite app_nth2_plus_gen by exact Hl0. apply T1; exact H.
    - apply (nth_ext _ _ [] []); [rewrite app_length, repeat_length; congruence|]. intros k Hk. rewrite Lw' in Hk. destruct (SPL k Hk) as [H|(j & -> & H)].
      + rewrite app_nth1 with (l := repeat _ _) by (rewrite repeat_length; exact H). rewrite nth_rep by exact H. rewrite <- (RW0 k H). symmetry. apply app_nth1. lia.
      + rewrite app_nth2_plus_gen by apply repeat_length. pose proof (RW j ltac:(lia)) as E. rewrite !app_nth1 in E by lia. exact E.
    - pose proof (RW (length x) (le_n _)) as E. rewrite app_nth2 in E by lia. rewrite app_nth2 in E by lia. rewrite Lw, Lw', !Nat.sub_diag in E. exact E.
  Qed.

  (** AP: the weights rest once the whole memory is silent *)
  Theorem C111_AP_quiet : forall rng (kw : kwargs R) n (o o' : obj) d x y e w k,
    rng_ok rng -> sane_kw kw -> kw_n kw = Some (Z.of_nat n) -> new_filter rng KAP kw = Ok o -> good_solver solve ->
    rows_of n x -> run d x o = (o', Ok (y, e, w)) -> (k < length x)%nat ->
    (forall j, (j < match kw_order kw with Some K => K | None => 5 end)%nat -> (j <= k)%nat -> nth (k - j) x [] = repeat 0 n) ->
    nth (S k) (w ++ [o_w o']) [] = nth k (w ++ [o_w o']) [].
  Proof.
    intros rng kw n o o' d x y e w k Hrng Hkw Hn Ho Hg Hx HR Hk Hz.
    pose proof (new_filter_wf rng KAP kw n o Hrng Hkw Hn Ho) as Hwf.
    destruct (C65_run_follows_the_recursion solve rng KAP kw n o o' d x y e w Hrng Hkw Hn Ho ltac:(auto) ltac:(discriminate) Hx HR) as (_ & P).
    unfold published in P. cbv zeta in P. destruct P as (_ & G & _ & HM).
    apply (nth_ext _ _ 0 0); [rewrite !(rows_len n o o' d x y e w _ Hwf Hx HR) by lia; reflexivity|]. intros i Hi.
    rewrite (rows_len n o o' d x y e w _ Hwf Hx HR) in Hi by lia. rewrite HM by assumption.
    rewrite (sumn_zero (par (kw_order kw) 5%nat)); [ring|]. intros a Ha. unfold ago. destruct (Nat.leb_spec a k) as [H|H]; [|ring].
    rewrite Hz by (exact Ha || exact H). rewrite nth_repeat. ring.
  Qed.
End Silence.

(** ** The hypotheses can be met, for every class *)
Section Ok.
  #[local] Hint Extern 0 (Num R) => exact (RNum rsolve) : typeclass_instances.
  Notation obj := (obj R).
  Definition zrng : nat -> rvec := fun k => repeat 0 k.

  Lemma ap_all_ok (kw : kwargs R) n (o : obj) mu order ifc : complete_solver rsolve order -> sane_kw kw -> kw_n kw = Some (Z.of_nat n) ->
    kw_mu kw = Some mu -> kw_order kw = Some order -> kw_ifc kw = Some ifc -> 0 < ifc -> new_filter zrng KAP kw = Ok o ->
    forall (d : rvec) (x : rmat) ps, rows_of n x -> Forall (op_shape n) ps -> snd (adapt_all d x (exec_all ps o)) = Ok tt.
  Proof.
    intros HC Hkw Hn Hmu Hor Hif Hi Ho. assert (Hz : rng_ok (T := R) zrng) by (intros k; apply repeat_length). induction d as [|d0 d IH]; intros [|x0 x] ps Hx Hps; try reflexivity.
    inversion Hx as [|? ? H0 Hx']; subst. cbn [adapt_all]. unfold bind.
    assert (E : snd (adapt d0 x0 (exec_all ps o)) = Ok tt).
    { apply (C58_AP_never_raises rsolve zrng kw (length x0) o ps d0 x0 mu order ifc); auto. }
    assert (E2 : fst (adapt d0 x0 (exec_all ps o)) = exec_all (ps ++ [OpAdapt d0 x0]) o) by (unfold exec_all; rewrite fold_left_app; reflexivity).
    destruct (adapt d0 x0 (exec_all ps o)) as [o1 [[]|]]; [|discriminate]. cbn [fst] in E2. rewrite E2. apply IH; [exact Hx'|].
    apply Forall_app; split; [exact Hps|]. repeat constructor.
  Qed.

  (** a filter with the keyword arguments of [rec_kw] can process any series *)
  Lemma rec_runs c (kw : kwargs R) (o : obj) d x : kw = rec_kw c \/ (c = KRLS /\ exists N0, kw = rewound c N0 (rec_kw c)) ->
    new_filter zrng c kw = Ok o -> rows_of 2 x -> length d = length x -> x <> [] -> exists o' y e w, run d x o = (o', Ok (y, e, w)).
  Proof.
    intros Hc Ho Hx Hl Hne.
    assert (H1 : rng_ok (T := R) zrng) by (intros k; apply repeat_length).
    assert (H2 : sane_kw kw) by (destruct Hc as [-> |(-> & N0 & ->)]; [destruct c|]; split; intros m Hm; cbn in Hm; try discriminate; injection Hm as <-; lia).
    assert (Hn : kw_n kw = Some (Z.of_nat 2)) by (destruct Hc as [-> |(-> & N0 & ->)]; reflexivity).
    pose proof (reach_new 2 zrng c kw o H1 H2 Hn Ho) as Hr.
    destruct (match c with KAP => true | _ => false end) eqn:Ec.
    - destruct c; try discriminate. destruct Hc as [-> |(Hc & _)]; [|discriminate]. pose proof (reachable_wf 2 o Hr) as Hwf.
      destruct (run_eq 2 o d x Hwf Hx Hl Hne) as (h & E & _). rewrite E.
      pose proof (ap_all_ok (rec_kw KAP) 2 o (1 / 2) 2 (1 / 2) rsolve_complete H2 Hn eq_refl eq_refl eq_refl ltac:(lra) Ho d x [] Hx ltac:(constructor)) as E3. change (exec_all [] o) with o in E3.
      rewrite E3. do 4 eexists. reflexivity.
    - apply (run_exists rsolve 2); auto. intros ex Hs. unfold soft_exn in Hs.
      destruct (new_filter_rate rsolve _ c kw 2 o Hn Ho) as (Hmu & _ & Hext).
      destruct c; try discriminate; cbn [init_ext] in Hext.
      all: try (injection Hext as Hext; rewrite <- Hext in Hs; exact Hs).
      match type of Hext with (if ?b then _ else _) = _ => destruct b; [discriminate Hext|] end. injection Hext as Hext. rewrite <- Hext in Hs. destruct Hs as (_ & Hs).
      assert (Hr2 : rate KRLS kw = 1 / 2) by (destruct Hc as [-> |(_ & N0 & ->)]; reflexivity).
      rewrite Hmu, Hr2 in Hs. revert Hs. cbn. unfold Reqb. destruct (Req_EM_T _ _); [lra|discriminate].
  Qed.

  Lemma rec_new c N0 : exists o oz : obj, new_filter zrng c (rec_kw c) = Ok o /\ new_filter zrng c (rewound c N0 (rec_kw c)) = Ok oz.
  Proof.
    destruct c; try (eexists _, _; split; reflexivity).
    assert (H : forall eps : option R, par eps (1 / 1000) <> 0 -> exists o : obj, new_filter zrng KRLS (mkKw (Some 2%Z) (Some (1 / 2)) (Some (WVec [1; 1])) eps None None None None None None None false) = Ok o).
    { intros eps He. unfold new_filter. assert (Hacc : existsb (fun p => kw_given (mkKw (Some 2%Z) (Some (1 / 2)) (Some (WVec [1; 1])) eps None None None None None None None false) p && negb (accepts KRLS p)) all_params = false)
        by (destruct eps; reflexivity). rewrite Hacc. cbn [kw_other kw_n kw_mu].
      unfold init_base. cbn [opt kw_w]. cbn. destruct (Reqb _ _) eqn:E; [|eexists; reflexivity]. exfalso. revert E. unfold Reqb. destruct (Req_EM_T _ _) as [E|]; [|discriminate].
      intros _. apply He. rewrite <- E. unfold opt, par. destruct eps; [reflexivity|]. unfold Q2R. cbn. lra. }
    destruct (H None) as (o & Ho); [cbn; lra|]. destruct (H (Some (1 / 1000 * (1 / 2) ^ N0))) as (oz & Hoz); [cbn [par]; apply Rmult_integral_contrapositive; split; [lra|apply pow_nonzero; lra]|].
    exists o, oz. split; [exact Ho|exact Hoz].
  Qed.

  Example C111_hypotheses : forall c, let z : rvec := [0; 0] in
    rng_ok (T := R) zrng /\ sane_kw (rec_kw c) /\ good_solver rsolve /\
    exists (o oz o1 o2 : obj) y e w y' e' w', new_filter zrng c (rec_kw c) = Ok o /\ new_filter zrng c (rewound c 2 (rec_kw c)) = Ok oz /\ reachable 2 o /\
      run [1; 2] [[1; 0]; [1; 2]] oz = (o1, Ok (y, e, w)) /\
      run [5; 7; 1; 2] [z; z; [1; 0]; [1; 2]] o = (o2, Ok (y', e', w')).
  Proof.
    intros c z. assert (H1 : rng_ok (T := R) zrng) by (intros k; apply repeat_length).
    assert (H2 : sane_kw (rec_kw c)) by (destruct c; split; intros m Hm; cbn in Hm; try discriminate; injection Hm as <-; lia).
    split; [exact H1|]. split; [exact H2|]. split; [exact rsolve_good|].
    destruct (rec_new c 2) as (o & oz & Ho & Hoz).
    destruct (rec_runs c (rewound c 2 (rec_kw c)) oz [1; 2] [[1; 0]; [1; 2]]) as (o1 & y & e & w & E); auto.
    { destruct c; auto. right. split; [reflexivity|]. exists 2%nat. reflexivity. } { repeat constructor. } { discriminate. }
    destruct (rec_runs c (rec_kw c) o [5; 7; 1; 2] [z; z; [1; 0]; [1; 2]]) as (o2 & y' & e' & w' & E'); auto.
    { repeat constructor. } { discriminate. }
    exists o, oz, o1, o2, y, e, w, y', e', w'. repeat (split; [assumption|]). split; [|auto]. exact (reach_new 2 zrng c (rec_kw c) o H1 H2 eq_refl Ho).
  Qed.
End Ok.

(** ** What does not hold (computed in exact rational arithmetic) *)
Section Refuted.
  Local Open Scope Q_scope.
  #[local] Instance Qs : Num Q := QNum qsolve2.
  Definition gap_kw (c : kind) : kwargs Q :=
    kwq 1 (1 # 2) [0] (match c with KOCNLMS => Some 4%nat | _ => None end) (match c with KAP => Some 2%nat | _ => None end).
  Definition gap_o (c : kind) : obj Q := get_ok obj0 (new_filter rng0 c (gap_kw c)).
  Lemma gap_reachable c : reachable 1 (gap_o c).
  Proof.
    apply (reach_new 1 rng0 c (gap_kw c)); [intros k; apply repeat_length| |reflexivity|destruct c; reflexivity].
    split; intros m Hm; destruct c; cbn in Hm; try discriminate; injection Hm as <-; lia.
  Qed.

  (** a silent sample in the middle changes what a filter with memory learns from the samples after it *)
  Theorem C111_gap_refuted : forall c, In c [KAP; KGNGD; KAng; KBenveniste; KMathews; KRLS; KOCNLMS] ->
    exists (o : obj Q) d1 x1 ds d2 x2, reachable 1 o /\ rows_of 1 x1 /\ rows_of 1 x2 /\
      (exists o1 o2 r1 r2, run (d1 ++ d2) (x1 ++ x2) o = (o1, Ok r1) /\ run (d1 ++ [ds] ++ d2) (x1 ++ [[0]] ++ x2) o = (o2, Ok r2) /\ o_w o1 <> o_w o2).
  Proof.
    intros c Hc. exists (gap_o c), [1; 2], [[1]; [2]], 1, [3; 5], [[1]; [3]]. split; [apply gap_reachable|]. split; [repeat constructor|]. split; [repeat constructor|].
    cbn [In] in Hc. repeat destruct Hc as [<-|Hc]; try contradiction;
      (eexists _, _, _, _; split; [vm_compute; reflexivity|]; split; [vm_compute; reflexivity|vm_compute; discriminate]).
  Qed.

  (** AP and OCNLMS go on learning on a silent sample *)
  Theorem C111_silent_sample_refuted : forall c, In c [KAP; KOCNLMS] ->
    exists (o : obj Q) d, reachable 1 o /\ snd (adapt d [0] o) = Ok tt /\ o_w (fst (adapt d [0] o)) <> o_w o.
  Proof.
    intros c Hc. exists (exec (OpRun [1; 2] [[1]; [2]]) (gap_o c)), 1. split; [apply reach_op; [apply gap_reachable|repeat constructor]|].
    cbn [In] in Hc. repeat destruct Hc as [<-|Hc]; try contradiction; (split; [vm_compute; reflexivity|vm_compute; discriminate]).
  Qed.

  (** OCNLMS: leading silence changes the results *)
  Theorem C111_leading_OCNLMS_refuted : exists (o o1 o2 : obj Q) d0 d x r1 r2, reachable 1 o /\ rows_of 1 x /\
    run d x o = (o1, Ok r1) /\ run (d0 :: d) ([0] :: x) o = (o2, Ok r2) /\ o_w o2 <> o_w o1.
  Proof.
    exists (gap_o KOCNLMS). eexists _, _, 7, [1; 2; 3], [[1]; [2]; [1]], _, _. split; [apply gap_reachable|]. split; [repeat constructor|].
    split; [vm_compute; reflexivity|]. split; [vm_compute; reflexivity|vm_compute; discriminate].
  Qed.
End Refuted.
