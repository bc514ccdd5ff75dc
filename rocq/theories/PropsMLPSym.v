(** Properties C68 and C69: renaming inputs, hidden nodes and outputs of the perceptron; twins; fixed points; bounds. *)
From Coq Require Import Reals Lra Psatz QArith Permutation.
From Verif Require Import Py Num Numpy StructProofs Spec RVec RMat Mlp PropsMLP PropsMLPR PropsBackprop.
Open Scope R_scope.

(** ** Renamings of the numbers below m *)
Definition renaming (m : nat) (p : nat -> nat) : Prop :=
  (forall i, (i < m)%nat -> (p i < m)%nat) /\ (forall i j, (i < m)%nat -> (j < m)%nat -> p i = p j -> i = j).
(** the same for the inputs of a layer, number 0 being the constant *)
Definition lift (p : nat -> nat) (c : nat) : nat := match c with O => O | S j => S (p j) end.

Lemma sumn_seq m f : sumn m f = Rsum (map f (seq 0 m)).
Proof. rewrite Rsum_sumn, map_length, seq_length. apply sumn_ext. intros i Hi. rewrite (map_nth_lt _ _ _ 0%nat) by (rewrite seq_length; auto). rewrite seq_nth by auto. reflexivity. Qed.
Lemma Rsum_perm l l' : Permutation l l' -> Rsum l = Rsum l'.
Proof. induction 1; simpl; lra. Qed.
Lemma sumn_rename m p f : renaming m p -> sumn m (fun i => f (p i)) = sumn m f.
Proof.
  intros (H1 & H2). rewrite !sumn_seq. rewrite <- (map_map p f). apply Rsum_perm, Permutation_map.
  assert (Hnd : NoDup (map p (seq 0 m))).
  { assert (G : forall l, (forall i, In i l -> (i < m)%nat) -> NoDup l -> NoDup (map p l)).
    { induction l as [|a l IH]; intros Hl Hn; simpl; [constructor|]. inversion Hn; subst. constructor; [|apply IH; auto; intros; apply Hl; simpl; auto].
      intros Hin. apply in_map_iff in Hin as (b & E & Hb). apply H2 in E; [subst; auto|apply Hl; simpl; auto|apply Hl; simpl; auto]. }
    apply G; [intros i Hi; apply in_seq in Hi; lia|apply seq_NoDup]. }
  apply NoDup_Permutation_bis; auto.
  - rewrite map_length, seq_length. lia.
  - intros a Ha. apply in_map_iff in Ha as (b & <- & Hb). apply in_seq in Hb. apply in_seq. split; [lia|]. apply H1. lia.
Qed.

(** ** The learning step only looks at the weights, and commutes with renamings *)
Section Renaming.
  Variables (f : actf) (wd : nat -> nat) (Q o : nat) (rate : nat -> R) (ro : R).
  Variables (P : nat -> nat -> nat) (O : nat -> nat).
  Hypothesis HP : forall q, (q <= Q)%nat -> renaming (wd q) (P q).
  Hypothesis HO : renaming o O.
  Hypothesis HQ : (0 < Q)%nat.

  (** second network from the first *)
  Definition renamed_h (Wa Wb : nat -> nat -> nat -> R) : Prop := forall q r c, (q < Q)%nat -> (r < wd (S q))%nat -> (c <= wd q)%nat ->
    Wb q r c = Wa q (P (S q) r) (lift (P q) c).
  Definition renamed_o (Va Vb : nat -> nat -> R) : Prop := forall r c, (r < o)%nat -> (c <= wd Q)%nat -> Vb r c = Va (O r) (lift (P Q) c).
  Definition renamed_v (m : nat) (p : nat -> nat) (a b : nat -> R) : Prop := forall r, (r < m)%nat -> b r = a (p r).

  Lemma activity_rename Wa Wb xa xb : renamed_h Wa Wb -> renamed_v (wd 0%nat) (P 0%nat) xa xb ->
    forall q, (q <= Q)%nat -> renamed_v (wd q) (P q) (activity f wd Wa xa q) (activity f wd Wb xb q).
  Proof.
    intros HW Hx. induction q as [|q IH]; intros Hq r Hr; cbn [activity]; [auto|]. f_equal.
    rewrite (HW q r 0%nat) by lia. cbn [lift]. f_equal.
    rewrite <- (sumn_rename (wd q) (P q) (fun j => Wa q (P (S q) r) (S j) * activity f wd Wa xa q j)) by (apply HP; lia).
    apply sumn_ext. intros j Hj. rewrite (HW q r (S j)) by lia. rewrite (IH ltac:(lia) j Hj). reflexivity.
  Qed.
  Lemma lead_rename q a b : renamed_v (wd q) (P q) a b -> forall c, (c <= wd q)%nat -> lead b c = lead a (lift (P q) c).
  Proof. intros H [|c] Hc; cbn [lead lift]; auto. Qed.

  Lemma step_rename xa xb da db Wa Va Wa' Va' ea Wb Vb Wb' Vb' eb :
    renamed_h Wa Wb -> renamed_o Va Vb -> renamed_v (wd 0%nat) (P 0%nat) xa xb -> renamed_v o O da db ->
    learning_step f wd Q o rate ro xa da Wa Va Wa' Va' ea -> learning_step f wd Q o rate ro xb db Wb Vb Wb' Vb' eb ->
    renamed_h Wa' Wb' /\ renamed_o Va' Vb' /\ renamed_v o O ea eb.
  Proof.
    intros HW HV Hx Hd (Da & A1 & A2 & A3 & A4 & A5) (Db & B1 & B2 & B3 & B4 & B5).
    pose proof (activity_rename _ _ _ _ HW Hx) as HA.
    set (aa := activity f wd Wa xa) in *. set (ab := activity f wd Wb xb) in *.
    destruct HO as (HO1 & HO2).
    assert (He : renamed_v o O ea eb).
    { intros r Hr. rewrite B1, A1 by auto. rewrite (Hd r Hr). f_equal. unfold response. rewrite (HV r 0%nat) by lia. cbn [lift]. f_equal.
      rewrite <- (sumn_rename (wd Q) (P Q) (fun j => Va (O r) (S j) * aa Q j)) by (apply HP; lia).
      apply sumn_ext. intros j Hj. rewrite (HV r (S j)) by lia. rewrite (HA Q (le_n Q) j Hj). reflexivity. }
    assert (Hlift : forall q c, (q <= Q)%nat -> (c <= wd q)%nat -> (lift (P q) c <= wd q)%nat).
    { intros q [|c] Hq Hc; cbn [lift]; [lia|]. destruct (HP q Hq) as (H1 & _). specialize (H1 c ltac:(lia)). lia. }
    assert (HPb : forall q r, (q <= Q)%nat -> (r < wd q)%nat -> (P q r < wd q)%nat) by (intros q r Hq Hr; apply (HP q Hq); auto).
    assert (HD : forall j q, (q + S j = Q)%nat -> renamed_v (wd (S q)) (P (S q)) (Da q) (Db q)).
    { induction j as [|j IH]; intros q Hq r Hr.
      - replace q with (Q - 1)%nat in * by lia. replace (S (Q - 1)) with Q in * by lia. rewrite B4, A4 by auto.
        rewrite (HA Q (le_n Q) r Hr). f_equal. destruct (Nat.eqb_spec o 1) as [E|E].
        + rewrite (He 0%nat) by lia. rewrite (HV 0%nat (S r)) by lia. cbn [lift]. replace (O 0%nat) with 0%nat by (specialize (HO1 0%nat); lia). reflexivity.
        + f_equal. rewrite <- (sumn_rename o O (fun i => ea i * Va i (S (P Q r)))) by (split; auto).
          apply sumn_ext. intros i Hi. rewrite (He i Hi), (HV i (S r)) by lia. reflexivity.
      - rewrite B5, A5 by (auto; try apply HPb; lia). rewrite (HA (S q) ltac:(lia) r Hr). f_equal.
        rewrite <- (sumn_rename (wd (S (S q))) (P (S (S q))) (fun i => Da (S q) i * Wa' (S q) i (S (P (S q) r)))) by (apply HP; lia).
        apply sumn_ext. intros i Hi. rewrite (IH (S q) ltac:(lia) i Hi). f_equal.
        pose proof (HPb (S q) r ltac:(lia) Hr) as Hr'. pose proof (HPb (S (S q)) i ltac:(lia) Hi) as Hi'.
        rewrite B3, A3 by (auto; lia). rewrite (HW (S q) i (S r)) by lia. rewrite (IH (S q) ltac:(lia) i Hi).
        rewrite (lead_rename (S q) _ _ (HA (S q) ltac:(lia)) (S r)) by lia. reflexivity. }
    split; [|split; [|exact He]].
    - intros q r c Hq Hr Hc. rewrite B3, A3 by (auto; try apply HPb; try apply Hlift; auto; lia). rewrite (HW q r c) by auto.
      rewrite (HD (Q - S q)%nat q ltac:(lia) r Hr). rewrite (lead_rename q _ _ (HA q ltac:(lia)) c) by auto. reflexivity.
    - intros r c Hr Hc. rewrite B2, A2 by (auto; apply Hlift; auto). rewrite (HV r c), (He r Hr) by auto.
      rewrite (lead_rename Q _ _ (HA Q (le_n Q)) c) by auto. reflexivity.
  Qed.
End Renaming.

Section Symmetry.
  Variable solve : list rvec -> list rvec -> option (list rvec).
  #[local] Hint Extern 0 (Num R) => exact (RNum solve) : typeclass_instances.
  Notation net := (net R).
  Notation val := (val R).

  Lemma net_of_learn sizes k o f mu (n : net) s : net_of sizes k o f mu n -> net_of sizes k o f mu (learn n s).
  Proof.
    intros H. unfold learn. apply (used _ _ _ _ _ _ (MUpdate (snd s))). apply (used _ _ _ _ _ _ (MPredict (fst s))). exact H.
  Qed.
  Lemma net_of_learned sizes k o f mu l : forall n : net, net_of sizes k o f mu n -> net_of sizes k o f mu (learned n l).
  Proof. induction l as [|s l IH]; intros n H; auto. apply IH. apply net_of_learn; auto. Qed.

  (** the weights of the second network are those of the first with inputs, hidden nodes and outputs renamed *)
  Definition renamed_net (sizes : list nat) (k o : nat) (P : nat -> nat -> nat) (O : nat -> nat) (na nb : net) : Prop :=
    renamed_h (width k sizes) (length sizes) P (hidden_w na) (hidden_w nb) /\
    renamed_o (width k sizes) (length sizes) o P O (out_w na) (out_w nb).
  Definition renamed_sample (k o : nat) (P : nat -> nat -> nat) (O : nat -> nat) (sa sb : rvec * val) : Prop :=
    renamed_v k (P 0%nat) (fun j => nth j (fst sa) 0) (fun j => nth j (fst sb) 0) /\ renamed_v o O (comp (snd sa)) (comp (snd sb)).

  Lemma sizes_pos sizes k o (n : net) : net_ok sizes k o n -> (0 < length sizes)%nat.
  Proof. intros (_ & _ & H & _). destruct sizes; [contradiction|simpl; lia]. Qed.

  (** C68: renaming commutes with training *)
  Theorem C68_renaming : forall sizes n_input outputs f mu P O na nb la lb,
    net_of sizes n_input outputs f mu na -> net_of sizes n_input outputs f mu nb ->
    (forall q, (q <= length sizes)%nat -> renaming (width n_input sizes q) (P q)) -> renaming outputs O ->
    renamed_net sizes n_input outputs P O na nb ->
    Forall (sample_ok n_input outputs) la -> Forall (sample_ok n_input outputs) lb ->
    Forall2 (renamed_sample n_input outputs P O) la lb ->
    renamed_net sizes n_input outputs P O (learned na la) (learned nb lb) /\
    Forall2 (fun ea eb => renamed_v outputs O (comp ea) (comp eb)) (errors na la) (errors nb lb).
  Proof.
    intros sizes k o f mu P O na nb la lb Ha Hb HP HO HR Fa Fb FR. revert na nb Ha Hb HR.
    induction FR as [|sa sb la lb (S1 & S2) FR IH]; intros na nb Ha Hb HR; [split; [exact HR|constructor]|].
    inversion Fa as [|? ? (Xa & Da) Fa']; subst. inversion Fb as [|? ? (Xb & Db) Fb']; subst.
    destruct (C66_learning_step solve _ _ _ _ _ na (fst sa) (snd sa) Ha eq_refl Da) as (ya & ea & _ & E2a & _ & La).
    destruct (C66_learning_step solve _ _ _ _ _ nb (fst sb) (snd sb) Hb Xb Db) as (yb & eb & _ & E2b & _ & Lb).
    cbv zeta in La, Lb. rewrite <- surjective_pairing in La, Lb.
    pose proof (sizes_pos _ _ _ _ (net_reach_ok _ _ _ _ (net_of_reach _ _ _ _ _ _ Ha))) as HQ.
    destruct HR as (R1 & R2).
    destruct (step_rename f (width (length (fst sa)) sizes) (length sizes) o _ _ P O HP HO HQ _ _ _ _ _ _ _ _ _ _ _ _ _ _ R1 R2 S1 S2 La Lb) as (T1 & T2 & T3).
    destruct (IH Fa' Fb' (learn na sa) (learn nb sb) (net_of_learn _ _ _ _ _ _ _ Ha) (net_of_learn _ _ _ _ _ _ _ Hb) (conj T1 T2)) as (I1 & I2).
    split; [exact I1|]. cbn [errors]. constructor; [|exact I2].
    destruct (C48_step_succeeds _ _ _ na (fst sa) (snd sa) (net_of_reach _ _ _ _ _ _ Ha) eq_refl Da) as (_ & Ua). cbv zeta in Ua. rewrite Ua in E2a. 
    destruct (C48_step_succeeds _ _ _ nb (fst sb) (snd sb) (net_of_reach _ _ _ _ _ _ Hb) Xb Db) as (_ & Ub). cbv zeta in Ub. rewrite Ub in E2b.
    assert (Ea : minus (snd sa) (forward na (fst sa)) = ea) by (apply (f_equal (fun r => match r with Ok a => a | Err _ => ea end)) in E2a; exact E2a).
    assert (Eb : minus (snd sb) (forward nb (fst sb)) = eb) by (apply (f_equal (fun r => match r with Ok a => a | Err _ => eb end)) in E2b; exact E2b).
    rewrite Ea, Eb. exact T3.
  Qed.

  (** C68: two hidden nodes of a layer that start as twins (same weights in, same weights out) are twins for ever:
      training never tells them apart *)
  Definition twins (sizes : list nat) (k o q r1 r2 : nat) (n : net) : Prop :=
    (forall c, (c <= width k sizes q)%nat -> hidden_w n q r1 c = hidden_w n q r2 c) /\
    (S q = length sizes -> forall r, (r < o)%nat -> out_w n r (S r1) = out_w n r (S r2)) /\
    ((S q < length sizes)%nat -> forall r, (r < width k sizes (S (S q)))%nat -> hidden_w n (S q) r (S r1) = hidden_w n (S q) r (S r2)).
  Definition swap (r1 r2 i : nat) : nat := if Nat.eqb i r1 then r2 else if Nat.eqb i r2 then r1 else i.
  Lemma swap_renaming m r1 r2 : (r1 < m)%nat -> (r2 < m)%nat -> renaming m (swap r1 r2).
  Proof.
    intros H1 H2. unfold swap. split.
    - intros i Hi. destruct (Nat.eqb_spec i r1); [lia|]. destruct (Nat.eqb_spec i r2); lia.
    - intros i j Hi Hj. destruct (Nat.eqb_spec i r1), (Nat.eqb_spec j r1), (Nat.eqb_spec i r2), (Nat.eqb_spec j r2); lia.
  Qed.
  Lemma id_renaming m : renaming m (fun i => i).
  Proof. split; auto. Qed.
  Lemma lift_id c : lift (fun i => i) c = c.
  Proof. destruct c; reflexivity. Qed.

  Theorem C68_twins : forall sizes n_input outputs f mu n l q r1 r2,
    net_of sizes n_input outputs f mu n -> Forall (sample_ok n_input outputs) l ->
    (q < length sizes)%nat -> (r1 < width n_input sizes (S q))%nat -> (r2 < width n_input sizes (S q))%nat ->
    twins sizes n_input outputs q r1 r2 n -> twins sizes n_input outputs q r1 r2 (learned n l).
  Proof.
    intros sizes k o f mu n l q r1 r2 Hn Hl Hq Hr1 Hr2 (T1 & T2 & T3).
    set (P := fun p => if Nat.eqb p (S q) then swap r1 r2 else (fun i => i)).
    assert (HP : forall p, (p <= length sizes)%nat -> renaming (width k sizes p) (P p)).
    { intros p Hp. unfold P. destruct (Nat.eqb_spec p (S q)) as [->|]; [apply swap_renaming; auto|apply id_renaming]. }
    assert (Hself : renamed_net sizes k o P (fun i => i) n n).
    { split.
      - intros p r c Hp Hr Hc. unfold P. destruct (Nat.eqb_spec (S p) (S q)) as [E|E].
        + injection E as ->. replace (Nat.eqb q (S q)) with false by (symmetry; apply Nat.eqb_neq; lia). rewrite lift_id.
          unfold swap. destruct (Nat.eqb_spec r r1) as [->|]; [apply T1; auto|]. destruct (Nat.eqb_spec r r2) as [->|]; [symmetry; apply T1; auto|reflexivity].
        + destruct (Nat.eqb_spec p (S q)) as [->|E2]; [|rewrite lift_id; reflexivity].
          destruct c as [|c]; cbn [lift]; auto. unfold swap. destruct (Nat.eqb_spec c r1) as [->|]; [apply T3; auto|].
          destruct (Nat.eqb_spec c r2) as [->|]; [symmetry; apply T3; auto|reflexivity].
      - intros r c Hr Hc. unfold P. destruct (Nat.eqb_spec (length sizes) (S q)) as [E|E]; [|rewrite lift_id; reflexivity].
        destruct c as [|c]; cbn [lift]; auto. unfold swap. destruct (Nat.eqb_spec c r1) as [->|]; [apply T2; auto|].
        destruct (Nat.eqb_spec c r2) as [->|]; [symmetry; apply T2; auto|reflexivity]. }
    assert (Hs : Forall2 (renamed_sample k o P (fun i => i)) l l).
    { clear. induction l as [|s l IH]; constructor; auto. split; intros r Hr; reflexivity. }
    destruct (C68_renaming sizes k o f mu P (fun i => i) n n l l Hn Hn HP (id_renaming o) Hself Hl Hl Hs) as ((R1 & R2) & _).
    assert (Hsw : swap r1 r2 r1 = r2) by (unfold swap; rewrite Nat.eqb_refl; reflexivity).
    split; [|split].
    - intros c Hc. specialize (R1 q r1 c Hq Hr1 Hc). unfold P in R1. rewrite Nat.eqb_refl, Hsw in R1.
      replace (Nat.eqb q (S q)) with false in R1 by (symmetry; apply Nat.eqb_neq; lia). rewrite lift_id in R1. exact R1.
    - intros E r Hr. specialize (R2 r (S r1) Hr). rewrite <- E in R2. unfold P in R2. rewrite Nat.eqb_refl in R2. cbn [lift] in R2. rewrite Hsw in R2.
      apply R2. lia.
    - intros E r Hr. specialize (R1 (S q) r (S r1) E Hr Hr1). unfold P in R1. rewrite Nat.eqb_refl in R1. cbn [lift] in R1. rewrite Hsw in R1.
      replace (Nat.eqb (S (S q)) (S q)) with false in R1 by (symmetry; apply Nat.eqb_neq; lia). exact R1.
  Qed.

  (** *** C69 *)
  Definition same_weights (sizes : list nat) (k o : nat) (na nb : net) : Prop :=
    (forall q r c, (q < length sizes)%nat -> (r < width k sizes (S q))%nat -> (c <= width k sizes q)%nat -> hidden_w nb q r c = hidden_w na q r c) /\
    (forall r c, (r < o)%nat -> (c <= width k sizes (length sizes))%nat -> out_w nb r c = out_w na r c).

  Lemma step_zero f wd Q o rate ro x d W V W' V' e : (0 < Q)%nat -> learning_step f wd Q o rate ro x d W V W' V' e ->
    (forall r, (r < o)%nat -> e r = 0) \/ (ro = 0 /\ forall q, (q < Q)%nat -> rate q = 0) ->
    (forall q r c, (q < Q)%nat -> (r < wd (S q))%nat -> (c <= wd q)%nat -> W' q r c = W q r c) /\
    (forall r c, (r < o)%nat -> (c <= wd Q)%nat -> V' r c = V r c).
  Proof.
    intros HQ (D & A1 & A2 & A3 & A4 & A5) [He|(Hr & Hq)].
    - assert (HD : forall j q, (q + S j = Q)%nat -> forall r, (r < wd (S q))%nat -> D q r = 0).
      { induction j as [|j IH]; intros q Hq r Hr.
        - replace q with (Q - 1)%nat in * by lia. replace (S (Q - 1)) with Q in Hr by lia. rewrite A4 by auto.
          destruct (Nat.eqb_spec o 1) as [E|E]; [rewrite He by lia; ring|].
          rewrite (sumn_ext o _ (fun _ => 0)) by (intros i Hi; rewrite He by auto; ring). rewrite sumn_0. ring.
        - rewrite A5 by (auto; lia). rewrite (sumn_ext _ _ (fun _ => 0)) by (intros i Hi; rewrite (IH (S q)) by (auto; lia); ring). rewrite sumn_0. ring. }
      split; [intros q r c Hq Hr Hc; rewrite A3, (HD (Q - S q)%nat q) by (auto; lia); ring|intros r c Hr Hc; rewrite A2, He by auto; ring].
    - split; [intros q r c Hq1 Hr1 Hc; rewrite A3, Hq by auto; ring|intros r c Hr1 Hc; rewrite A2, Hr by auto; ring].
  Qed.

  (** a sample that is already predicted exactly changes no weight, nor does any sample at learning rate 0 *)
  Theorem C69_fixed_points : forall sizes n_input outputs f mu n x d,
    net_of sizes n_input outputs f mu n -> length x = n_input -> vlen d outputs ->
    snd (net_predict x n) = Ok d \/ mu = MuNum 0 ->
    same_weights sizes n_input outputs n (learn n (x, d)).
  Proof.
    intros sizes k o f mu n x d Hn Hx Hd H.
    destruct (C66_learning_step solve _ _ _ _ _ n x d Hn Hx Hd) as (y & e & E1 & E2 & Hy & L). cbv zeta in L.
    pose proof (sizes_pos _ _ _ _ (net_reach_ok _ _ _ _ (net_of_reach _ _ _ _ _ _ Hn))) as HQ.
    eapply step_zero; [exact HQ|exact L|]. destruct H as [H| ->].
    - left. rewrite H in E1. assert (y = d) by (injection E1; auto). subst y. intros r Hr.
      destruct L as (D & A1 & _). rewrite A1, Hy by auto. unfold response. lra.
    - right. split; [reflexivity|]. intros q Hq. reflexivity.
  Qed.

  (** the outputs are bounded by the output weights alone, whatever the input and the hidden weights *)
  Theorem C69_output_bound : forall sizes n_input outputs f mu n x y r,
    net_of sizes n_input outputs f mu n -> length x = n_input -> snd (net_predict x n) = Ok y -> (r < outputs)%nat ->
    Rabs (comp y r - out_w n r 0%nat) <= sumn (width n_input sizes (length sizes)) (fun j => Rabs (out_w n r (S j))).
  Proof.
    intros sizes k o f mu n x y r Hn Hx Ey Hr. pose proof (net_reach_ok _ _ _ _ (net_of_reach _ _ _ _ _ _ Hn)) as Ho.
    pose proof (sizes_pos _ _ _ _ Ho) as HQ.
    destruct (net_predict_ok sizes k o x n Ho Hx) as (P1 & _ & P3 & _). rewrite Ey in P1.
    assert (vlen y o) by (injection P1 as ->; auto).
    destruct (C66_learning_step solve _ _ _ _ _ n x y Hn Hx H) as (y' & e & E1 & _ & Hy & _). rewrite Ey in E1.
    assert (y' = y) by (injection E1; auto). subst y'. rewrite Hy by auto. unfold response.
    set (a := activity f (width k sizes) (hidden_w n) (fun j => nth j x 0) (length sizes)).
    assert (Ha : forall j, Rabs (a j) <= 1).
    { intros j. unfold a. destruct (length sizes) as [|Q]; [lia|]. cbn [activity]. set (z := _ + _). rewrite <- (squash_act solve). apply Rabs_le. destruct f.
      - pose proof (C45_sigmoid_range solve z). lra.
      - pose proof (C45_tanh_range solve z). lra. }
    match goal with |- Rabs (?v + ?s - ?v') <= _ => replace (v + s - v') with s by (unfold Rminus; ring) end.
    clearbody a. clear Hy. generalize (width k sizes (length sizes)). intros m0. induction m0 as [|m IH]; cbn [sumn]; [rewrite Rabs_R0; lra|].
    eapply Rle_trans; [apply Rabs_triang|]. apply Rplus_le_compat; [exact IH|]. rewrite Rabs_mult.
    pose proof (Rabs_pos (out_w n r (S m))). specialize (Ha m). nra.
  Qed.

  (** ** Non-vacuity *)
  Definition z_rng1 (s : R) (k : nat) : rvec := repeat (1 / 2) k.
  Definition z_rng (i : nat) (s : R) (r c : nat) : rmat := repeat (repeat (1 / 3) c) r.
  Lemma z_rngs_ok : rngs_ok z_rng1 z_rng.
  Proof.
    split; [intros s k; apply repeat_length|]. intros i s r c. split; [apply repeat_length|].
    apply Forall_forall. intros a Ha. apply repeat_spec in Ha; subst. apply repeat_length.
  Qed.
  (** a network with constant weights: any two nodes of a layer are twins *)
  Definition z_net : net := mkNet (1 / 4) 2 1 (W1 [1 / 2; 1 / 2; 1 / 2]) [1; 1; 1] (VNum 0)
    [mkLayer (1 / 4) 2 [[1 / 3; 1 / 3; 1 / 3]; [1 / 3; 1 / 3; 1 / 3]] [1; 1; 1] [0; 0; 0] Tanh].
  Lemma z_net_of : net_of [2]%nat 2 1 Tanh (MuNum (1 / 4)) z_net.
  Proof. apply (made _ _ _ _ _ z_rng1 z_rng); [apply z_rngs_ok|reflexivity]. Qed.
  Example C68_hypotheses : net_of [2]%nat 2 1 Tanh (MuNum (1 / 4)) z_net /\ twins [2]%nat 2 1 0 0 1 z_net /\
    Forall (sample_ok 2 1) [([1; 2], VNum 3)] /\
    renaming 2 (swap 0 1) /\ renamed_net [2]%nat 2 1 (fun _ => swap 0 1) (fun i => i) z_net z_net /\
    renamed_sample 2 1 (fun _ => swap 0 1) (fun i => i) ([1; 2], VNum 3) ([2; 1], VNum 3).
  Proof.
    split; [apply z_net_of|]. split.
    { split; [|split].
      - intros c Hc. destruct c as [|[|[|c]]]; reflexivity.
      - intros _ r Hr. reflexivity.
      - simpl. lia. }
    split; [repeat constructor|]. split; [apply swap_renaming; lia|]. split.
    - split.
      + intros q r c Hq Hr Hc. simpl in Hq. destruct q as [|q]; [|lia]. unfold width in Hr, Hc; cbn [nth] in Hr, Hc.
        destruct r as [|[|r]]; [| |lia]; (destruct c as [|[|[|c]]]; [| | |lia]); reflexivity.
      + intros r c Hr Hc. unfold width in Hc; cbn [nth length] in Hc. destruct c as [|[|[|c]]]; [| | |lia]; reflexivity.
    - split; intros r Hr; [|reflexivity]. destruct r as [|[|r]]; [| |lia]; reflexivity.
  Qed.
  (** a sample predicted exactly exists for every network: take the prediction as the target *)
  Example C69_hypotheses : exists d, snd (net_predict [1; 2] z_net) = Ok d /\ vlen d 1.
  Proof.
    destruct (net_predict_ok [2]%nat 2 1 [1; 2] z_net (net_reach_ok _ _ _ _ (net_of_reach _ _ _ _ _ _ z_net_of)) eq_refl) as (P1 & _ & P3 & _).
    eexists. split; [exact P1|exact P3].
  Qed.
  Example C67_hypotheses : net_reach [2]%nat 2 1 z_net /\ rows_of 2 [[1; 2]] /\ rows_of 2 [[3; 4]; [5; 6]] /\
    fits 1 1 (D1 [1]) [VNum 1] /\ fits 1 2 (D1 [2; 3]) [VNum 2; VNum 3] /\ fits 1 3 (D1 [1; 2; 3]) ([VNum 1] ++ [VNum 2; VNum 3]).
  Proof. split; [apply (net_of_reach _ _ _ _ _ _ z_net_of)|]. repeat split; repeat constructor. Qed.
End Symmetry.
