(** C103: how OCNLMS centres the targets (exact real arithmetic).  The filter keeps the targets it has seen - not the
    targets themselves but e + y of a second reading of its memory - and adds their average to the output.  The inputs are
    silent (all zero, or mu = 0 with zero weights), so that the output is this average alone. *)
From Coq Require Import Reals Lra Psatz.
From Verif Require Import Py Num Numpy Filters Registry Spec StructProofs RunProofs Reach RVec RFilter Steps RMat PropsRegistry PropsAlgebra PropsStability
  PropsRun PropsOCNLMS PropsRecursion.
From Verif Require PropsLDAOpt PropsDetection PropsNoOverflow.
Open Scope R_scope.

(** ** Specification *)
(** nothing but the targets can move the output: every input is zero, or the weights are zero and never change *)
Definition silent (n : nat) (o : obj R) (x : list rvec) : Prop :=
  (forall r, In r x -> r = repeat 0 n) \/ (o_mu o = 0 /\ o_w o = repeat 0 n).

Lemma abs_le a b : - b <= a -> a <= b -> Rabs a <= b.
Proof. intros. apply Rabs_le. lra. Qed.
Lemma le_abs a b : Rabs a <= b -> - b <= a <= b.
Proof. intros H. pose proof (Rle_abs a). pose proof (Rle_abs (- a)). rewrite Rabs_Ropp in *. lra. Qed.

Lemma even_mod m mem : (0 < mem)%nat -> Nat.even mem = true -> Nat.even (m mod mem) = Nat.even m.
Proof.
  intros H0 He. pose proof (Nat.div_mod m mem ltac:(lia)) as D. rewrite D at 2. rewrite Nat.even_add, Nat.even_mul, He. cbn [orb].
  destruct (Nat.even (m mod mem)); reflexivity.
Qed.
Lemma even_double k : Nat.even (2 * k) = true.
Proof. apply Nat.even_spec. exists k. reflexivity. Qed.
Lemma even_double1 k : Nat.even (2 * k + 1) = false.
Proof. rewrite Nat.even_add, even_double. reflexivity. Qed.

Lemma sumn_near n f g r : (forall s, (s < n)%nat -> Rabs (f s - g s) <= r) -> Rabs (sumn n f - sumn n g) <= INR n * r.
Proof.
  intros H. rewrite <- sumn_minus. eapply Rle_trans; [apply PropsNoOverflow.sumn_abs|].
  rewrite <- (PropsDetection.sumn_const n r). apply sumn_le. exact H.
Qed.
(** the average of all numbers but one *)
Lemma others_near mem a f g r : (2 <= mem)%nat -> (a < mem)%nat -> (forall s, (s < mem)%nat -> Rabs (f s - g s) <= r) ->
  Rabs ((sumn mem f - f a) / INR (mem - 1) - (sumn mem g - g a) / INR (mem - 1)) <= r.
Proof.
  intros Hm Ha H. destruct mem as [|m]; [lia|]. replace (S m - 1)%nat with m by lia.
  rewrite !(PropsLDAOpt.sumn_skip m a) by exact Ha. assert (Hp : 0 < INR m) by (apply lt_0_INR; lia).
  replace ((f a + sumn m (fun j => f (PropsLDAOpt.skip a j)) - f a) / INR m - (g a + sumn m (fun j => g (PropsLDAOpt.skip a j)) - g a) / INR m)
    with ((sumn m (fun j => f (PropsLDAOpt.skip a j)) - sumn m (fun j => g (PropsLDAOpt.skip a j))) / INR m) by (field; lra).
  unfold Rdiv. rewrite Rabs_mult, (Rabs_pos_eq (/ INR m)) by (left; apply Rinv_0_lt_compat; exact Hp).
  apply (Rmult_le_reg_r (INR m)); [exact Hp|]. rewrite Rmult_assoc, Rinv_l, Rmult_1_r, (Rmult_comm r) by lra.
  apply sumn_near. intros s Hs. apply H. unfold PropsLDAOpt.skip. destruct (Nat.ltb_spec s a); lia.
Qed.

(** ** The memory *)
Section Memory.
  Variables (mem N : nat) (d t : nat -> R).
  Hypothesis Hmem : (2 <= mem)%nat.
  Let md k := oc_offset_d mem (2 * k) (slot mem t k).
  Let md' k := oc_offset_d mem (2 * k + 1) (slot mem t k).
  Hypothesis Ht : forall k, (k < N)%nat -> t k = d k - md k + md' k.

  Lemma slot_in k s : slot mem t k s = 0 \/ exists j, (j < k)%nat /\ slot mem t k s = t j.
  Proof.
    induction k as [|k IH]; [left; reflexivity|]. cbn [slot]. destruct (Nat.eqb_spec ((2 * k + 1) mod mem) s) as [E|E].
    - right. exists k. split; [lia|reflexivity].
    - destruct IH as [IH|(j & Hj & IH)]; [left; exact IH|right; exists j; split; [lia|exact IH]].
  Qed.
  Lemma slot_fresh k s : (2 * k <= s)%nat -> (s < mem)%nat -> slot mem t k s = 0.
  Proof.
    intros H Hs. assert (HG : forall j, (j <= k)%nat -> slot mem t j s = 0); [|apply HG; lia].
    induction j as [|j IH]; intros Hj; [reflexivity|]. cbn [slot]. rewrite Nat.mod_small by lia.
    destruct (Nat.eqb_spec (2 * j + 1) s); [lia|]. apply IH; lia.
  Qed.
  Lemma slot_even k s : Nat.even mem = true -> Nat.even s = true -> slot mem t k s = 0.
  Proof.
    intros Hm Hs. induction k as [|k IH]; [reflexivity|]. cbn [slot]. destruct (Nat.eqb_spec ((2 * k + 1) mod mem) s) as [E|E]; [|exact IH].
    exfalso. rewrite <- E, even_mod, even_double1 in Hs by (auto; lia). discriminate.
  Qed.
  (** after [mem] more samples every slot in use has been written again *)
  Definition used (s : nat) : Prop := (s < mem)%nat /\ (Nat.even mem = true -> Nat.even s = false).
  Lemma hits k s : used s -> exists j, (k <= j < k + mem)%nat /\ ((2 * j + 1) mod mem = s)%nat.
  Proof.
    intros (Hs & Hu).
    assert (HA : exists j0, ((2 * j0 + 1) mod mem = s)%nat).
    { destruct (Nat.even s) eqn:Es.
      - destruct (Nat.even mem) eqn:Em; [specialize (Hu eq_refl); discriminate|].
        assert (Hod : Nat.odd mem = true) by (unfold Nat.odd; rewrite Em; reflexivity). apply Nat.odd_spec in Hod as (h & Hh).
        apply Nat.even_spec in Es as (q & Hq). exists (h + q)%nat. replace (2 * (h + q) + 1)%nat with (s + 1 * mem)%nat by lia.
        rewrite Nat.mod_add by lia. apply Nat.mod_small. exact Hs.
      - assert (Hod : Nat.odd s = true) by (unfold Nat.odd; rewrite Es; reflexivity). apply Nat.odd_spec in Hod as (q & Hq).
        exists q. rewrite Nat.mod_small by lia. lia. }
    destruct HA as (j0 & HJ).
    (* the representative of j0 modulo mem in [k, k + mem) *)
    set (r := ((j0 + mem * k - k) mod mem)%nat). exists (k + r)%nat.
    assert (Hr : (r < mem)%nat) by (apply Nat.mod_upper_bound; lia). split; [lia|].
    pose proof (Nat.div_mod (j0 + mem * k - k) mem ltac:(lia)) as D. fold r in D. set (z := ((j0 + mem * k - k) / mem)%nat) in *.
    assert (Hk : (k <= mem * k)%nat) by nia.
    assert (E : (2 * (k + r) + 1 + (2 * z) * mem = 2 * j0 + 1 + (2 * k) * mem)%nat) by nia.
    rewrite <- HJ, <- (Nat.mod_add (2 * j0 + 1) (2 * k) mem), <- (Nat.mod_add (2 * (k + r) + 1) (2 * z) mem) by lia. rewrite E. reflexivity.
  Qed.
  Lemma slot_since k s : forall K, (exists j, (k <= j < K)%nat /\ ((2 * j + 1) mod mem = s)%nat) -> exists j, (k <= j < K)%nat /\ slot mem t K s = t j.
  Proof.
    induction K as [|K IH]; intros (j & Hj & E); [lia|]. cbn [slot]. destruct (Nat.eqb_spec ((2 * K + 1) mod mem) s) as [E'|E'].
    - exists K. split; [lia|reflexivity].
    - destruct IH as (j' & Hj' & E2); [exists j; split; [|exact E]; destruct (Nat.eq_dec j K); [subst; contradiction|lia]|].
      exists j'. split; [lia|exact E2].
  Qed.

  (** *** Bounded targets, at least four slots: bounded outputs *)
  Lemma slots_bounded B k : 0 <= B -> (forall j, (j < k)%nat -> Rabs (t j) <= B) -> forall s, Rabs (slot mem t k s) <= B.
  Proof. intros HB H s. destruct (slot_in k s) as [-> | (j & Hj & ->)]; [rewrite Rabs_R0; exact HB|apply H; exact Hj]. Qed.

  Lemma change_bounded B k : (4 <= mem)%nat -> 0 <= B -> (forall s, Rabs (slot mem t k s) <= 2 * B) -> Rabs (md' k - md k) <= B.
  Proof.
    intros Hm HB HS. unfold md, md', oc_offset_d.
    assert (HA : forall c, Rabs (sumn c (slot mem t k)) <= INR c * (2 * B)).
    { intros c. pose proof (sumn_near c (slot mem t k) (fun _ => 0) (2 * B)) as H. rewrite sumn_0, Rminus_0_r in H. apply H.
      intros s _. rewrite Rminus_0_r. apply HS. }
    destruct (Nat.ltb_spec (2 * k) mem) as [H1|H1].
    - destruct (Nat.eqb_spec (2 * k) 0) as [H0|H0].
      + replace k with 0%nat by lia. cbn [Nat.mul Nat.add]. destruct (Nat.ltb_spec 1 mem); [|lia]. cbn [Nat.eqb sumn slot]. apply abs_le; lra.
      + destruct (Nat.eqb_spec (2 * k + 1) 0); [lia|]. rewrite Nat.add_1_r.
        pose proof (HA (2 * k)%nat) as HK. destruct (Nat.ltb_spec (S (2 * k)) mem) as [H2|H2].
        * cbn [sumn]. rewrite (slot_fresh k (2 * k)), Rplus_0_r by lia. set (S0 := sumn (2 * k) (slot mem t k)) in *.
          rewrite S_INR. assert (Hp : 2 <= INR (2 * k)) by (change 2 with (INR 2); apply le_INR; lia). set (p := INR (2 * k)) in *.
          replace (S0 / (p + 1) - S0 / p) with (- (S0 / p / (p + 1))) by (field; lra). rewrite Rabs_Ropp.
          unfold Rdiv. rewrite !Rabs_mult, (Rabs_pos_eq (/ p)), (Rabs_pos_eq (/ (p + 1))) by (left; apply Rinv_0_lt_compat; lra).
          apply (Rmult_le_reg_r (p * (p + 1))); [nra|].
          replace (Rabs S0 * / p * / (p + 1) * (p * (p + 1))) with (Rabs S0) by (field; lra).
          pose proof (Rmult_le_pos (B * p) (p - 1) ltac:(apply Rmult_le_pos; lra) ltac:(lra)). lra.
        * assert (Em : mem = S (2 * k)) by lia. replace (INR (mem - 1)) with (INR (2 * k)) by (f_equal; lia).
          replace (S (2 * k) mod mem)%nat with 0%nat by (rewrite Em; symmetry; apply Nat.mod_same; lia).
          replace (sumn mem (slot mem t k)) with (sumn (S (2 * k)) (slot mem t k)) by (f_equal; lia). cbn [sumn].
          rewrite (slot_fresh k (2 * k)), Rplus_0_r by lia. set (S0 := sumn (2 * k) (slot mem t k)) in *.
          assert (Hp : 4 <= INR (2 * k)) by (replace 4 with (INR 4) by (cbn; lra); apply le_INR; lia). set (p := INR (2 * k)) in *.
          replace ((S0 - slot mem t k 0) / p - S0 / p) with (- (slot mem t k 0 / p)) by (field; lra). rewrite Rabs_Ropp.
          unfold Rdiv. rewrite Rabs_mult, (Rabs_pos_eq (/ p)) by (left; apply Rinv_0_lt_compat; lra).
          apply (Rmult_le_reg_r p); [lra|]. rewrite Rmult_assoc, Rinv_l, Rmult_1_r by lra. pose proof (HS 0%nat). nra.
    - destruct (Nat.ltb_spec (2 * k + 1) mem); [lia|].
      set (a := ((2 * k) mod mem)%nat). set (b := ((2 * k + 1) mod mem)%nat). set (p := INR (mem - 1)).
      assert (Hp3 : 3 <= p) by (replace 3 with (INR 3) by (cbn; lra); apply le_INR; lia).
      replace ((sumn mem (slot mem t k) - slot mem t k b) / p - (sumn mem (slot mem t k) - slot mem t k a) / p)
        with ((slot mem t k a - slot mem t k b) / p) by (field; lra).
      unfold Rdiv. rewrite Rabs_mult, (Rabs_pos_eq (/ p)) by (left; apply Rinv_0_lt_compat; lra).
      apply (Rmult_le_reg_r p); [lra|]. rewrite Rmult_assoc, Rinv_l, Rmult_1_r by lra.
      pose proof (HS a) as Ha. pose proof (HS b) as Hb.
      destruct (Nat.eq_dec mem 4) as [E4|E4].
      + assert (Za : slot mem t k a = 0).
        { apply slot_even; [rewrite E4; reflexivity|]. unfold a. rewrite even_mod by (try rewrite E4; auto; lia). apply even_double. }
        rewrite Za. unfold Rminus. rewrite Rplus_0_l, Rabs_Ropp. nra.
      + assert (Hp4 : 4 <= p) by (replace 4 with (INR 4) by (cbn; lra); apply le_INR; lia).
        pose proof (Rabs_triang (slot mem t k a) (- slot mem t k b)) as HT. rewrite Rabs_Ropp in HT. unfold Rminus. nra.
  Qed.

  Lemma stored_bounded B : (4 <= mem)%nat -> (forall k, (k < N)%nat -> Rabs (d k) <= B) -> forall k, (k < N)%nat -> Rabs (t k) <= 2 * B.
  Proof.
    intros Hm HB k. induction k as [k IH] using (well_founded_induction lt_wf). intros Hk.
    assert (H0 : 0 <= B) by (eapply Rle_trans; [apply Rabs_pos|apply (HB k Hk)]).
    rewrite Ht by exact Hk. pose proof (change_bounded B k Hm H0 (slots_bounded (2 * B) k ltac:(lra) ltac:(intros j Hj; apply IH; lia))) as HC.
    pose proof (HB k Hk) as Hd. apply le_abs in HC. apply le_abs in Hd. apply abs_le; lra.
  Qed.
  Lemma offset_bounded B k : (forall s, Rabs (slot mem t k s) <= B) -> 0 <= B -> Rabs (md k) <= B.
  Proof.
    intros HS HB. unfold md, oc_offset_d. destruct (Nat.ltb_spec (2 * k) mem) as [H1|H1].
    - destruct (Nat.eqb_spec (2 * k) 0) as [H0|H0]; [rewrite Rabs_R0; exact HB|].
      pose proof (sumn_near (2 * k) (slot mem t k) (fun _ => 0) B) as H. rewrite sumn_0, Rminus_0_r in H.
      assert (Hp : 0 < INR (2 * k)) by (apply lt_0_INR; lia). unfold Rdiv. rewrite Rabs_mult, (Rabs_pos_eq (/ _)) by (left; apply Rinv_0_lt_compat; exact Hp).
      apply (Rmult_le_reg_r (INR (2 * k))); [exact Hp|]. rewrite Rmult_assoc, Rinv_l, Rmult_1_r, (Rmult_comm B) by lra. apply H.
      intros s _. rewrite Rminus_0_r. apply HS.
    - pose proof (others_near mem ((2 * k) mod mem) (slot mem t k) (fun _ => 0) B Hmem ltac:(apply Nat.mod_upper_bound; lia)) as H.
      rewrite sumn_0 in H. replace ((0 - 0) / INR (mem - 1)) with 0 in H by (unfold Rdiv; ring). rewrite Rminus_0_r in H. apply H.
      intros s _. rewrite Rminus_0_r. apply HS.
  Qed.

  (** *** A constant target *)
  Section Constant.
    Variable c : R.
    Hypothesis Hd : forall k, (k < N)%nat -> d k = c.
    Hypothesis Hm4 : (4 <= mem)%nat.
    (** what a slot in use tends to *)
    Definition stored_limit : R := if Nat.even mem then c * INR (mem - 1) / INR mem else c.
    Definition slot_limit (s : nat) : R := if Nat.even mem then (if Nat.even s then 0 else stored_limit) else c.

    Lemma p_pos : 3 <= INR (mem - 1).
    Proof. replace 3 with (INR 3) by (cbn; lra); apply le_INR; lia. Qed.
    Lemma step_near r k : (mem <= 2 * k)%nat -> (k < N)%nat -> (forall s, (s < mem)%nat -> Rabs (slot mem t k s - slot_limit s) <= r) ->
      Rabs (t k - stored_limit) <= r / 2.
    Proof.
      intros Hk HN HS. rewrite Ht by exact HN. rewrite Hd by exact HN. unfold md, md', oc_offset_d.
      destruct (Nat.ltb_spec (2 * k) mem); [lia|]. destruct (Nat.ltb_spec (2 * k + 1) mem); [lia|].
      set (a := ((2 * k) mod mem)%nat). set (b := ((2 * k + 1) mod mem)%nat). pose proof p_pos as Hp. pose proof (HS a ltac:(apply Nat.mod_upper_bound; lia)) as Ha.
      pose proof (HS b ltac:(apply Nat.mod_upper_bound; lia)) as Hb. assert (Hr : 0 <= r) by (eapply Rle_trans; [apply Rabs_pos|exact Ha]).
      replace (c - (sumn mem (slot mem t k) - slot mem t k a) / INR (mem - 1) + (sumn mem (slot mem t k) - slot mem t k b) / INR (mem - 1))
        with (c + (slot mem t k a - slot mem t k b) / INR (mem - 1)) by (field; lra).
      assert (HI : INR mem = INR (mem - 1) + 1) by (rewrite <- S_INR; f_equal; lia). unfold slot_limit, stored_limit in *.
      destruct (Nat.even mem) eqn:Em.
      - assert (Ev : Nat.even a = true) by (unfold a; rewrite even_mod by (auto; lia); apply even_double).
        assert (Eb : Nat.even b = false) by (unfold b; rewrite even_mod by (auto; lia); apply even_double1).
        rewrite (slot_even k a) by auto. rewrite Eb in Hb. set (L := c * INR (mem - 1) / INR mem) in *.
        assert (HL : c - L = L / INR (mem - 1)) by (unfold L; rewrite HI; field; lra).
        replace (c + (0 - slot mem t k b) / INR (mem - 1) - L) with (- ((slot mem t k b - L) / INR (mem - 1)));
          [|unfold Rdiv at 1; rewrite <- HL || idtac; replace c with (L + L / INR (mem - 1)) by lra; field; lra].
        rewrite Rabs_Ropp. unfold Rdiv. rewrite Rabs_mult, (Rabs_pos_eq (/ INR (mem - 1))) by (left; apply Rinv_0_lt_compat; lra).
        apply (Rmult_le_reg_r (INR (mem - 1))); [lra|]. rewrite Rmult_assoc, Rinv_l, Rmult_1_r by lra. nra.
      - assert (Hp4 : 4 <= INR (mem - 1)).
        { replace 4 with (INR 4) by (cbn; lra). apply le_INR. destruct (Nat.eq_dec mem 4) as [E|]; [rewrite E in Em; discriminate|lia]. }
        replace (c + (slot mem t k a - slot mem t k b) / INR (mem - 1) - c) with (((slot mem t k a - c) - (slot mem t k b - c)) / INR (mem - 1)) by (field; lra).
        unfold Rdiv at 1. rewrite Rabs_mult, (Rabs_pos_eq (/ INR (mem - 1))) by (left; apply Rinv_0_lt_compat; lra).
        apply (Rmult_le_reg_r (INR (mem - 1))); [lra|]. rewrite Rmult_assoc, Rinv_l, Rmult_1_r by lra.
        pose proof (Rabs_triang (slot mem t k a - c) (- (slot mem t k b - c))) as HT. rewrite Rabs_Ropp in HT. unfold Rminus at 1. nra.
    Qed.

    Lemma written_limit k : Nat.even mem = true -> Nat.even ((2 * k + 1) mod mem) = false.
    Proof. intros Em. rewrite even_mod by (auto; lia). apply even_double1. Qed.
    Lemma limit_written k : slot_limit ((2 * k + 1) mod mem) = stored_limit.
    Proof.
      unfold slot_limit. destruct (Nat.even mem) eqn:Em; [|unfold stored_limit; rewrite Em; reflexivity].
      rewrite written_limit by exact Em. reflexivity.
    Qed.
    Definition near (r : R) (k : nat) : Prop := forall s, (s < mem)%nat -> Rabs (slot mem t k s - slot_limit s) <= r.
    Lemma near_stays r k : (mem <= 2 * k)%nat -> near r k -> forall j, (k + j <= N)%nat -> near r (k + j) /\
      forall i, (k <= i < k + j)%nat -> Rabs (t i - stored_limit) <= r / 2.
    Proof.
      intros Hk H0. induction j as [|j IH]; intros HN.
      - rewrite Nat.add_0_r. split; [exact H0|intros i Hi; lia].
      - destruct (IH ltac:(lia)) as (HI & HB). pose proof (step_near r (k + j) ltac:(lia) ltac:(lia) HI) as HT.
        assert (Hr : 0 <= r / 2) by (eapply Rle_trans; [apply Rabs_pos|exact HT]). split.
        + intros s Hs. replace (k + S j)%nat with (S (k + j)) by lia. cbn [slot]. destruct (Nat.eqb_spec ((2 * (k + j) + 1) mod mem) s) as [E|E]; [|apply HI; exact Hs].
          rewrite <- E, limit_written. lra.
        + intros i Hi. destruct (Nat.eq_dec i (k + j)) as [->|]; [exact HT|apply HB; lia].
    Qed.
    Lemma near_halves r k : (mem <= 2 * k)%nat -> (k + mem <= N)%nat -> near r k -> near (r / 2) (k + mem).
    Proof.
      intros Hk HN H0. destruct (near_stays r k Hk H0 mem HN) as (_ & HB).
      assert (Hr : 0 <= r / 2) by (eapply Rle_trans; [apply Rabs_pos|apply (HB k); lia]).
      intros s Hs. unfold slot_limit. destruct (Nat.even mem) eqn:Em.
      - destruct (Nat.even s) eqn:Es; [rewrite slot_even by auto; rewrite Rminus_0_r, Rabs_R0; exact Hr|].
        destruct (slot_since k s (k + mem)) as (j & Hj & ->); [apply hits; split; auto|]. apply HB; lia.
      - destruct (slot_since k s (k + mem)) as (j & Hj & ->); [apply hits; split; [exact Hs|rewrite Em; discriminate]|].
        replace c with stored_limit by (unfold stored_limit; rewrite Em; reflexivity). apply HB; lia.
    Qed.
    Lemma limit_le : Rabs stored_limit <= Rabs c.
    Proof.
      unfold stored_limit. destruct (Nat.even mem); [|lra]. pose proof p_pos. assert (HI : INR mem = INR (mem - 1) + 1) by (rewrite <- S_INR; f_equal; lia).
      unfold Rdiv. rewrite !Rabs_mult, (Rabs_pos_eq (INR (mem - 1))), (Rabs_pos_eq (/ INR mem)) by (try (left; apply Rinv_0_lt_compat); lra).
      apply (Rmult_le_reg_r (INR mem)); [lra|]. rewrite !Rmult_assoc, Rinv_l, Rmult_1_r by lra. pose proof (Rabs_pos c). nra.
    Qed.
    Lemma near_start : (mem <= N)%nat -> near (3 * Rabs c) mem.
    Proof.
      intros HN s Hs. pose proof (stored_bounded (Rabs c) Hm4 ltac:(intros k Hk; rewrite Hd by exact Hk; lra)) as HB.
      assert (Hc : 0 <= Rabs c) by apply Rabs_pos. pose proof (slots_bounded (2 * Rabs c) mem ltac:(lra) ltac:(intros j Hj; apply HB; lia) s) as H1.
      assert (H2 : Rabs (slot_limit s) <= Rabs c).
      { unfold slot_limit. pose proof limit_le. destruct (Nat.even mem); [destruct (Nat.even s); [rewrite Rabs_R0; exact Hc|assumption]|lra]. }
      apply le_abs in H1. apply le_abs in H2. apply abs_le; lra.
    Qed.
    Lemma near_all j : ((1 + j) * mem <= N)%nat -> near (3 * Rabs c / 2 ^ j) ((1 + j) * mem).
    Proof.
      induction j as [|j IH]; intros HN.
      - rewrite Nat.mul_1_l in *. cbn [pow]. replace (3 * Rabs c / 1) with (3 * Rabs c) by field. apply near_start. exact HN.
      - replace ((1 + S j) * mem)%nat with ((1 + j) * mem + mem)%nat by lia. replace (3 * Rabs c / 2 ^ S j) with (3 * Rabs c / 2 ^ j / 2) by (cbn [pow]; field; apply pow_nonzero; lra).
        apply near_halves; [nia|lia|]. apply IH. lia.
    Qed.
    Lemma offset_limit_value a : (a < mem)%nat -> (Nat.even mem = true -> Nat.even a = true) ->
      (sumn mem slot_limit - slot_limit a) / INR (mem - 1) = if Nat.even mem then c / 2 else c.
    Proof.
      intros Ha He. pose proof p_pos. unfold slot_limit. destruct (Nat.even mem) eqn:Em.
      - rewrite (He eq_refl). apply Nat.even_spec in Em as (h & Hh).
        assert (HS : sumn mem (fun s => if Nat.even s then 0 else stored_limit) = INR h * stored_limit).
        { rewrite Hh. clear. induction h as [|h IH]; [cbn; ring|]. replace (2 * S h)%nat with (S (S (2 * h))) by lia. cbn [sumn]. rewrite IH.
          assert (E1 : Nat.even (2 * h) = true) by (apply Nat.even_spec; exists h; reflexivity).
          rewrite Nat.even_succ. unfold Nat.odd. rewrite E1. cbn [negb]. rewrite S_INR. ring. }
        rewrite HS. unfold stored_limit. replace (Nat.even mem) with true by (symmetry; apply Nat.even_spec; exists h; exact Hh).
        assert (HI : INR mem = 2 * INR h) by (rewrite Hh, mult_INR; cbn; ring). assert (0 < INR h) by (apply lt_0_INR; lia). rewrite HI. field. lra.
      - rewrite PropsDetection.sumn_const. assert (HI : INR mem = INR (mem - 1) + 1) by (rewrite <- S_INR; f_equal; lia). rewrite HI. field. lra.
    Qed.
    Lemma offset_limit j k : ((1 + j) * mem <= k < N)%nat -> Rabs (md k - (if Nat.even mem then c / 2 else c)) <= 3 * Rabs c / 2 ^ j.
    Proof.
      intros (H1 & H2). pose proof (near_all j ltac:(lia)) as H0.
      destruct (near_stays (3 * Rabs c / 2 ^ j) ((1 + j) * mem) ltac:(nia) H0 (k - (1 + j) * mem) ltac:(lia)) as (HK & _).
      replace ((1 + j) * mem + (k - (1 + j) * mem))%nat with k in HK by lia.
      unfold md, oc_offset_d. destruct (Nat.ltb_spec (2 * k) mem); [nia|]. set (a := ((2 * k) mod mem)%nat).
      assert (Ha : (a < mem)%nat) by (apply Nat.mod_upper_bound; lia).
      rewrite <- (offset_limit_value a Ha); [apply others_near; auto|].
      intros Em. unfold a. rewrite even_mod by (auto; lia). apply even_double.
    Qed.
  End Constant.
End Memory.

(** ** Two or three slots: an alternating target resonates *)
Section Resonance.
  Variables (N : nat) (t : nat -> R).
  Definition alt (k : nat) : R := if Nat.even k then 1 else -1.
  Lemma alt_S k : alt (S k) = - alt k.
  Proof. unfold alt. rewrite Nat.even_succ. unfold Nat.odd. destruct (Nat.even k); cbn [negb]; lra. Qed.
  Lemma alt_abs k a : Rabs (alt k * a) = Rabs a.
  Proof. rewrite Rabs_mult. unfold alt. destruct (Nat.even k); [rewrite Rabs_R1|rewrite Rabs_left by lra]; lra. Qed.

  Section Two.
    Let md k := oc_offset_d 2 (2 * k) (slot 2 t k).
    Let md' k := oc_offset_d 2 (2 * k + 1) (slot 2 t k).
    Hypothesis Ht : forall k, (k < N)%nat -> t k = alt k - md k + md' k.
    Lemma two_slot1 k : slot 2 t (S k) 1 = t k.
    Proof. cbn [slot]. replace ((2 * k + 1) mod 2)%nat with 1%nat; [reflexivity|]. symmetry. rewrite Nat.add_comm, Nat.mul_comm, Nat.mod_add by lia. reflexivity. Qed.
    Lemma two_md k : md (S k) = t k.
    Proof.
      unfold md, oc_offset_d. destruct (Nat.ltb_spec (2 * S k) 2); [lia|]. replace ((2 * S k) mod 2)%nat with 0%nat by (rewrite Nat.mul_comm, Nat.mod_mul; lia).
      cbn [sumn Nat.sub INR]. rewrite two_slot1. lra.
    Qed.
    Lemma two_md' k : md' (S k) = 0.
    Proof.
      unfold md', oc_offset_d. destruct (Nat.ltb_spec (2 * S k + 1) 2); [lia|].
      replace ((2 * S k + 1) mod 2)%nat with 1%nat by (rewrite Nat.add_comm, Nat.mul_comm, Nat.mod_add by lia; reflexivity).
      cbn [sumn Nat.sub INR]. rewrite (slot_even 2 t ltac:(lia) (S k) 0) by reflexivity. lra.
    Qed.
    Lemma two_stored : forall k, (k < N)%nat -> t k = alt k * (INR k + 1).
    Proof.
      induction k as [|k IH]; intros Hk; rewrite Ht by exact Hk.
      - unfold md, md', oc_offset_d, alt. cbn. lra.
      - rewrite two_md, two_md', IH by lia. rewrite alt_S, S_INR. lra.
    Qed.
    Lemma two_offset k : (k < N)%nat -> INR k / 4 <= Rabs (md k).
    Proof.
      intros Hk. destruct k as [|k]; [cbn [INR]; pose proof (Rabs_pos (md 0)); lra|].
      rewrite two_md, two_stored by lia. rewrite alt_abs, S_INR. pose proof (pos_INR k). rewrite Rabs_pos_eq; lra.
    Qed.
  End Two.

  Section Three.
    Let md k := oc_offset_d 3 (2 * k) (slot 3 t k).
    Let md' k := oc_offset_d 3 (2 * k + 1) (slot 3 t k).
    Hypothesis Ht : forall k, (k < N)%nat -> t k = alt k - md k + md' k.
    (** the three slots before sample k hold the last three samples *)
    Lemma three_slots k : let a := ((2 * k) mod 3)%nat in let b := ((2 * k + 1) mod 3)%nat in let c := ((2 * k + 2) mod 3)%nat in
      slot 3 t (S (S (S k))) a = t (S k) /\ slot 3 t (S (S (S k))) b = t k /\ slot 3 t (S (S (S k))) c = t (S (S k)) /\
      sumn 3 (slot 3 t (S (S (S k)))) = t k + t (S k) + t (S (S k)).
    Proof.
      intros a b c.
      assert (E0 : ((2 * k + 1) mod 3 = b)%nat) by reflexivity.
      assert (E1 : ((2 * S k + 1) mod 3 = a)%nat) by (unfold a; replace (2 * S k + 1)%nat with (2 * k + 1 * 3)%nat by lia; apply Nat.mod_add; lia).
      assert (E2 : ((2 * S (S k) + 1) mod 3 = c)%nat) by (unfold c; replace (2 * S (S k) + 1)%nat with (2 * k + 2 + 1 * 3)%nat by lia; apply Nat.mod_add; lia).
      assert (HC : (a = 0 /\ b = 1 /\ c = 2)%nat \/ (a = 1 /\ b = 2 /\ c = 0)%nat \/ (a = 2 /\ b = 0 /\ c = 1)%nat).
      { unfold a, b, c. pose proof (Nat.div_mod (2 * k) 3 ltac:(lia)) as D. pose proof (Nat.mod_upper_bound (2 * k) 3 ltac:(lia)) as U.
        set (q := ((2 * k) / 3)%nat) in *. set (r := ((2 * k) mod 3)%nat) in *.
        rewrite D. replace (3 * q + r + 1)%nat with (r + 1 + q * 3)%nat by lia. replace (3 * q + r + 2)%nat with (r + 2 + q * 3)%nat by lia.
        rewrite !Nat.mod_add by lia. destruct r as [|[|[|r]]]; [left|right; left|right; right|lia]; cbn; lia. }
      cbn [slot]. rewrite E0, E1, E2. clear E0 E1 E2. clearbody a b c.
      destruct HC as [(-> & -> & ->)|[(-> & -> & ->)|(-> & -> & ->)]]; cbn; repeat split; lra.
    Qed.
    Lemma three_md k : md (S (S (S k))) = (t k + t (S (S k))) / 2 /\ md' (S (S (S k))) = (t (S k) + t (S (S k))) / 2.
    Proof.
      destruct (three_slots k) as (Ha & Hb & Hc & HS). unfold md, md', oc_offset_d.
      destruct (Nat.ltb_spec (2 * S (S (S k))) 3); [lia|]. destruct (Nat.ltb_spec (2 * S (S (S k)) + 1) 3); [lia|].
      replace (2 * S (S (S k)))%nat with (2 * k + 2 * 3)%nat by lia. replace (2 * k + 2 * 3 + 1)%nat with (2 * k + 1 + 2 * 3)%nat by lia.
      rewrite !Nat.mod_add by lia. rewrite Ha, Hb, HS. replace (INR (3 - 1)) with 2 by (cbn; lra). split; lra.
    Qed.
    Lemma three_first : (forall k, (k < N)%nat -> (k <= 2)%nat -> t k = alt k * nth k [1; 1; 3 / 2] 0) /\
      forall k, (k < N)%nat -> (k <= 2)%nat -> INR k / 4 <= Rabs (md k).
    Proof.
      assert (H0 : (0 < N)%nat -> t 0%nat = 1) by (intros H; rewrite Ht by exact H; unfold md, md', oc_offset_d, alt; cbn; lra).
      assert (H1 : (1 < N)%nat -> t 1%nat = -1) by (intros H; rewrite Ht by exact H; unfold md, md', oc_offset_d, alt; cbn; rewrite ?H0 by lia; lra).
      assert (H2 : (2 < N)%nat -> t 2%nat = 3 / 2) by (intros H; rewrite Ht by exact H; unfold md, md', oc_offset_d, alt; cbn; rewrite ?H0, ?H1 by lia; lra).
      split; intros k Hk Hk2; destruct k as [|[|[|k]]]; try lia.
      - rewrite H0 by lia. unfold alt. cbn. lra.
      - rewrite H1 by lia. unfold alt. cbn. lra.
      - rewrite H2 by lia. unfold alt. cbn. lra.
      - cbn [INR]. pose proof (Rabs_pos (md 0)). lra.
      - unfold md, oc_offset_d. cbn. rewrite H0 by lia. rewrite Rabs_pos_eq; lra.
      - unfold md, oc_offset_d. cbn. rewrite ?H0, ?H1 by lia. rewrite Rabs_left1; lra.
    Qed.
    Lemma three_stored : forall k, (k < N)%nat -> exists s, t k = alt k * s /\ (2 * INR k + 3) / 5 <= s.
    Proof.
      intros k. induction k as [k IH] using (well_founded_induction lt_wf). intros Hk.
      destruct (le_lt_dec k 2) as [Hk2|Hk2].
      - exists (nth k [1; 1; 3 / 2] 0). split; [apply three_first; auto|]. destruct k as [|[|[|k]]]; [cbn; lra|cbn; lra|cbn; lra|lia].
      - destruct k as [|[|[|k]]]; try lia. destruct (IH k ltac:(lia) ltac:(lia)) as (s0 & E0 & B0). destruct (IH (S k) ltac:(lia) ltac:(lia)) as (s1 & E1 & B1).
        destruct (three_md k) as (M1 & M2). exists (1 + (s1 + s0) / 2). split.
        + rewrite Ht, M1, M2, E0, E1 by exact Hk. rewrite !alt_S. lra.
        + rewrite !S_INR in *. lra.
    Qed.
    Lemma three_offset k : (k < N)%nat -> INR k / 4 <= Rabs (md k).
    Proof.
      intros Hk. destruct (le_lt_dec k 2) as [Hk2|Hk2]; [apply three_first; auto|]. destruct k as [|[|[|k]]]; try lia.
      destruct (three_md k) as (-> & _). destruct (three_stored k ltac:(lia)) as (s0 & E0 & B0). destruct (three_stored (S (S k)) ltac:(lia)) as (s2 & E2 & B2).
      rewrite E0, E2, !alt_S. replace ((alt k * s0 + - - alt k * s2) / 2) with (alt k * ((s0 + s2) / 2)) by field. rewrite alt_abs.
      pose proof (pos_INR k). rewrite !S_INR in *. rewrite Rabs_pos_eq; lra.
    Qed.
  End Three.
End Resonance.

(** ** Runs *)
Section Runs.
  Variable solve : list rvec -> list rvec -> option (list rvec).
  #[local] Hint Extern 0 (Num R) => exact (RNum solve) : typeclass_instances.
  Notation obj := (obj R).

  (** the number of slots: the argument mem, 100 by default *)
  Definition slots (kw : kwargs R) : nat := match kw_mem kw with Some m => m | None => 100%nat end.

  Lemma slot_zero mem v k s : (forall j, v j = 0) -> slot mem v k s = 0.
  Proof. intros H. induction k as [|k IH]; cbn [slot]; [reflexivity|]. rewrite H, IH. destruct (_ =? _)%nat; reflexivity. Qed.
  Lemma sumn_zero n f : (forall i, (i < n)%nat -> f i = 0) -> sumn n f = 0.
  Proof. intros H. rewrite (sumn_ext n f (fun _ => 0)) by exact H. apply sumn_0. Qed.
  Lemma offset_x_zero mem c m : (forall s, m s = 0) -> oc_offset_x mem c m = 0.
  Proof.
    intros H. unfold oc_offset_x. rewrite !sumn_zero by auto. unfold Rdiv. rewrite !Rmult_0_l. destruct (c <? mem)%nat; [destruct (c =? 0)%nat|]; reflexivity.
  Qed.

  Lemma silent_run rng (kw : kwargs R) n (o o' : obj) d x y e w :
    rng_ok rng -> sane_kw kw -> kw_n kw = Some (Z.of_nat n) -> new_filter rng KOCNLMS kw = Ok o -> (2 <= slots kw)%nat ->
    silent n o x -> rows_of n x -> run d x o = (o', Ok (y, e, w)) ->
    exists t : nat -> R, forall k, (k < length x)%nat ->
      nth k y 0 = oc_offset_d (slots kw) (2 * k) (slot (slots kw) t k) /\
      nth k e 0 = nth k d 0 - nth k y 0 /\
      t k = nth k d 0 - oc_offset_d (slots kw) (2 * k) (slot (slots kw) t k) + oc_offset_d (slots kw) (2 * k + 1) (slot (slots kw) t k).
  Proof.
    intros Hrng Hkw Hn Ho Hm Hs Hx HR.
    destruct (C65_run_follows_the_recursion solve rng KOCNLMS kw n o o' d x y e w Hrng Hkw Hn Ho) as (HW0 & HP); auto.
    { discriminate. } { intros _ E. unfold slots in Hm. rewrite E in Hm. lia. }
    set (X := fun k i => nth i (nth k x []) 0) in *. set (W := fun k i => nth i (nth k (w ++ [o_w o']) []) 0) in *.
    assert (HW : forall i, W 0%nat i = nth i (o_w o) 0) by (intros i; unfold W; rewrite HW0; reflexivity).
    set (D := fun k => nth k d 0) in *. set (Y := fun k => nth k y 0) in *. set (E := fun k => nth k e 0) in *.
    assert (HX0 : forall j i, X j i = nth i (nth j x []) 0) by reflexivity.
    enough (G : exists t : nat -> R, forall k, (k < length x)%nat -> Y k = oc_offset_d (slots kw) (2 * k) (slot (slots kw) t k) /\ E k = D k - Y k /\
      t k = D k - oc_offset_d (slots kw) (2 * k) (slot (slots kw) t k) + oc_offset_d (slots kw) (2 * k + 1) (slot (slots kw) t k)) by exact G.
    clearbody X W D Y E. destruct HP as (t & HE & HY & HT & HM). change (par (kw_mem kw) 100%nat) with (slots kw) in *.
    exists t. intros k Hk.
    assert (HC : sumn n (fun i => W k i * (X k i - oc_offset_x (slots kw) (2 * k) (slot (slots kw) (fun j => X j i) k))) = 0 /\
      dotn n (W k) (fun i => X k i - oc_offset_x (slots kw) (2 * k + 1) (slot (slots kw) (fun j => X j i) (S k))) = 0).
    { destruct Hs as [Hs|(Hmu & Hw)].
      - assert (HX : forall j i, X j i = 0).
        { intros j i. rewrite HX0. destruct (le_lt_dec (length x) j) as [Hj|Hj]; [rewrite (nth_overflow x) by exact Hj; destruct i; reflexivity|].
          rewrite (Hs (nth j x [])) by (apply nth_In; exact Hj). apply nth_repeat. }
        split; apply sumn_zero; intros i Hi; rewrite HX, offset_x_zero by (intros s; apply slot_zero; auto); ring.
      - assert (HZ : forall j i, (j <= length x)%nat -> (i < n)%nat -> W j i = 0).
        { induction j as [|j IH]; intros i Hj Hi; [rewrite HW, Hw; apply nth_repeat|].
          rewrite HM by (auto; lia). rewrite IH by (auto; lia).
          replace (rate KOCNLMS kw) with 0 by (destruct (new_filter_rate solve rng KOCNLMS kw n o Hn Ho) as (<- & _); congruence).
          unfold Rdiv. ring. }
        split; apply sumn_zero; intros i Hi; rewrite HZ by (auto; lia); ring. }
    destruct HC as (C1 & C2). rewrite HT, HE, HY, C1, C2 by exact Hk. split; [ring|]. split; [reflexivity|]. ring.
  Qed.

  (** *** C103 *)
  (** With four slots or more, targets bounded by B give outputs bounded by 2 B. *)
  Theorem C103_bounded : forall rng (kw : kwargs R) n (o o' : obj) d x y e w B,
    rng_ok rng -> sane_kw kw -> kw_n kw = Some (Z.of_nat n) -> new_filter rng KOCNLMS kw = Ok o -> 0 < par (kw_eps kw) 1 -> (4 <= slots kw)%nat ->
    rows_of n x -> silent n o x -> run d x o = (o', Ok (y, e, w)) -> (forall k, Rabs (nth k d 0) <= B) ->
    forall k, (k < length x)%nat -> Rabs (nth k y 0) <= 2 * B /\ Rabs (nth k e 0) <= 3 * B.
  Proof.
    intros rng kw n o o' d x y e w B Hrng Hkw Hn Ho _ Hm Hx Hs HR HB k Hk.
    destruct (silent_run rng kw n o o' d x y e w Hrng Hkw Hn Ho ltac:(lia) Hs Hx HR) as (t & HT).
    assert (H0 : 0 <= B) by (eapply Rle_trans; [apply Rabs_pos|apply (HB k)]).
    assert (HS : forall s, Rabs (slot (slots kw) t k s) <= 2 * B).
    { apply (slots_bounded (slots kw) t ltac:(lia) (2 * B) k); [lra|]. intros j Hj. apply (stored_bounded (slots kw) (length x) (fun k => nth k d 0) t); auto; try lia. intros i Hi. apply HT; exact Hi. }
    destruct (HT k Hk) as (Hy & He & _).
    assert (HY : Rabs (nth k y 0) <= 2 * B) by (rewrite Hy; apply (offset_bounded (slots kw) t ltac:(lia) (2 * B) k); auto; lra).
    split; [exact HY|]. rewrite He. pose proof (HB k) as HD. apply le_abs in HY. apply le_abs in HD. apply abs_le; lra.
  Qed.

  (** For a constant target c the output tends to c if the number of slots is odd, but to c/2 if it is even, as the default 100 is;
      the distance is at least halved every [slots] samples. *)
  Theorem C103_constant : forall rng (kw : kwargs R) n (o o' : obj) d x y e w c,
    rng_ok rng -> sane_kw kw -> kw_n kw = Some (Z.of_nat n) -> new_filter rng KOCNLMS kw = Ok o -> 0 < par (kw_eps kw) 1 -> (4 <= slots kw)%nat ->
    rows_of n x -> silent n o x -> run d x o = (o', Ok (y, e, w)) -> (forall k, (k < length x)%nat -> nth k d 0 = c) ->
    let limit := if Nat.even (slots kw) then c / 2 else c in
    forall j k, ((1 + j) * slots kw <= k < length x)%nat ->
      Rabs (nth k y 0 - limit) <= 3 * Rabs c / 2 ^ j /\ Rabs (nth k e 0 - (c - limit)) <= 3 * Rabs c / 2 ^ j.
  Proof.
    intros rng kw n o o' d x y e w c Hrng Hkw Hn Ho _ Hm Hx Hs HR HD limit j k Hk.
    destruct (silent_run rng kw n o o' d x y e w Hrng Hkw Hn Ho ltac:(lia) Hs Hx HR) as (t & HT).
    destruct (HT k ltac:(lia)) as (Hy & He & _).
    assert (HY : Rabs (nth k y 0 - limit) <= 3 * Rabs c / 2 ^ j).
    { rewrite Hy. apply (offset_limit (slots kw) (length x) (fun k => nth k d 0) t); auto; try lia. intros i Hi. apply HT; exact Hi. }
    split; [exact HY|]. rewrite He, HD by lia. rewrite <- Rabs_Ropp. replace (- (c - nth k y 0 - (c - limit))) with (nth k y 0 - limit) by ring. exact HY.
  Qed.

  (** With two or three slots the targets 1, -1, 1, -1, ... make the output grow without bound. *)
  Theorem C103_resonance : forall rng (kw : kwargs R) n (o o' : obj) d x y e w,
    rng_ok rng -> sane_kw kw -> kw_n kw = Some (Z.of_nat n) -> new_filter rng KOCNLMS kw = Ok o -> 0 < par (kw_eps kw) 1 ->
    kw_mem kw = Some 2%nat \/ kw_mem kw = Some 3%nat ->
    rows_of n x -> silent n o x -> run d x o = (o', Ok (y, e, w)) -> (forall k, (k < length x)%nat -> nth k d 0 = if Nat.even k then 1 else -1) ->
    forall k, (k < length x)%nat -> INR k / 4 <= Rabs (nth k y 0).
  Proof.
    intros rng kw n o o' d x y e w Hrng Hkw Hn Ho _ Hm Hx Hs HR HD k Hk.
    assert (Hm2 : (2 <= slots kw)%nat) by (unfold slots; destruct Hm as [-> | ->]; lia).
    destruct (silent_run rng kw n o o' d x y e w Hrng Hkw Hn Ho Hm2 Hs Hx HR) as (t & HT).
    destruct (HT k Hk) as (-> & _). unfold slots in *. destruct Hm as [Hm|Hm]; rewrite Hm in *.
    - apply (two_offset (length x) t); [|exact Hk]. intros i Hi. destruct (HT i Hi) as (_ & _ & ->). rewrite HD by exact Hi. reflexivity.
    - apply (three_offset (length x) t); [|exact Hk]. intros i Hi. destruct (HT i Hi) as (_ & _ & ->). rewrite HD by exact Hi. reflexivity.
  Qed.

  Definition centre_kw (mem : option nat) : kwargs R := mkKw (Some 1%Z) None (Some (WStr "zeros")) None None None None None None None mem false.
  (** for any targets, any length of the record and any mem but 1: FilterOCNLMS(n=1, w="zeros", mem=mem) on zero inputs *)
  Example C103_hypotheses : forall mem (d : rvec), d <> [] -> (forall m, mem = Some m -> (2 <= m)%nat) ->
    rng_ok rngR /\ sane_kw (centre_kw mem) /\ kw_n (centre_kw mem) = Some (Z.of_nat 1) /\ 0 < par (kw_eps (centre_kw mem)) 1 /\
    slots (centre_kw mem) = (match mem with Some m => m | None => 100%nat end) /\
    exists (o o' : obj) y e w, new_filter rngR KOCNLMS (centre_kw mem) = Ok o /\
      rows_of 1 (repeat [0] (length d)) /\ silent 1 o (repeat [0] (length d)) /\ run d (repeat [0] (length d)) o = (o', Ok (y, e, w)).
  Proof.
    intros mem d Hd Hm. assert (Hk : sane_kw (centre_kw mem)) by (split; [intros m E; cbn in E; pose proof (Hm m E); lia|intros m E; discriminate E]).
    split; [exact rngR_ok|]. split; [exact Hk|]. split; [reflexivity|]. split; [cbn; lra|]. split; [reflexivity|].
    assert (Ho : exists o : obj, new_filter rngR KOCNLMS (centre_kw mem) = Ok o /\ is_OCNLMS o = true) by (eexists; split; [destruct mem; reflexivity|reflexivity]).
    destruct Ho as (o & Ho & Hoc). assert (Hr : reachable 1 o) by (apply (reach_new 1 rngR KOCNLMS (centre_kw mem)); auto using rngR_ok).
    assert (Hx : rows_of 1 (repeat [0] (length d))) by (apply Forall_forall; intros r H; apply repeat_spec in H; subst r; reflexivity).
    destruct (run_exists solve 1 o d (repeat [0] (length d)) Hr Hx) as (o' & y & e & w & E).
    - rewrite repeat_length. reflexivity.
    - destruct d; [contradiction|discriminate].
    - intros ex H. unfold soft_exn in H. unfold is_OCNLMS in Hoc. destruct (o_ext o); try discriminate; contradiction.
    - exists o, o', y, e, w. split; [exact Ho|]. split; [exact Hx|]. split; [|exact E]. left. intros r H. apply repeat_spec in H. exact H.
  Qed.
End Runs.
