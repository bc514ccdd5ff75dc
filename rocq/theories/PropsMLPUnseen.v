(** C115: what a perceptron does with inputs that are always zero, constant or equal, and with directions its inputs never show. *)
From Coq Require Import Reals Lra Psatz QArith Permutation.
From Verif Require Import Py Num Numpy StructProofs Spec RVec RMat Mlp PropsMLP PropsMLPR PropsBackprop PropsMLPSym.
Open Scope R_scope.

(** ** Two steps whose first-layer nodes are driven alike *)
Section Agree.
  Variables (f : actf) (wa wb : nat -> nat) (Q o : nat) (ra rb : nat -> R) (ro : R).
  Hypothesis HQ : (0 < Q)%nat.
  Hypothesis Hw : forall q, (1 <= q <= Q)%nat -> wb q = wa q.
  Hypothesis Hr : forall q, (1 <= q < Q)%nat -> rb q = ra q.

  Definition drive (wd : nat -> nat) (W : nat -> nat -> nat -> R) (x : nat -> R) (r : nat) : R :=
    W 0%nat r 0%nat + sumn (wd 0%nat) (fun j => W 0%nat r (S j) * x j).
  Definition same_above (Wa Wb : nat -> nat -> nat -> R) : Prop := forall q r c, (1 <= q < Q)%nat -> (r < wa (S q))%nat -> (c <= wa q)%nat ->
    Wb q r c = Wa q r c.
  Definition same_out (Va Vb : nat -> nat -> R) : Prop := forall r c, (r < o)%nat -> (c <= wa Q)%nat -> Vb r c = Va r c.

  Lemma activity_agree Wa Wb xa xb : same_above Wa Wb -> (forall r, (r < wa 1%nat)%nat -> drive wb Wb xb r = drive wa Wa xa r) ->
    forall q, (1 <= q <= Q)%nat -> forall r, (r < wa q)%nat -> activity f wb Wb xb q r = activity f wa Wa xa q r.
  Proof.
    intros HA HD q. induction q as [|q IH]; intros Hq r Hr0; [lia|]. cbn [activity]. f_equal.
    destruct q as [|q]; [exact (HD r Hr0)|].
    rewrite (HA (S q) r 0%nat) by lia. f_equal. rewrite Hw by lia. apply sumn_ext. intros j Hj.
    rewrite (HA (S q) r (S j)) by lia. rewrite IH by lia. reflexivity.
  Qed.

  Lemma step_agree xa xb da db Wa Va Wa' Va' ea Wb Vb Wb' Vb' eb :
    same_above Wa Wb -> same_out Va Vb -> (forall r, (r < wa 1%nat)%nat -> drive wb Wb xb r = drive wa Wa xa r) ->
    (forall r, (r < o)%nat -> db r = da r) ->
    learning_step f wa Q o ra ro xa da Wa Va Wa' Va' ea -> learning_step f wb Q o rb ro xb db Wb Vb Wb' Vb' eb ->
    (forall r, (r < o)%nat -> eb r = ea r) /\ same_out Va' Vb' /\ same_above Wa' Wb' /\
    exists g : nat -> R,
      (forall r c, (r < wa 1%nat)%nat -> (c <= wa 0%nat)%nat -> Wa' 0%nat r c = Wa 0%nat r c + ra 0%nat * g r * lead xa c) /\
      (forall r c, (r < wa 1%nat)%nat -> (c <= wb 0%nat)%nat -> Wb' 0%nat r c = Wb 0%nat r c + rb 0%nat * g r * lead xb c) /\
      (Q = 1%nat -> o = 1%nat -> forall r, (r < wa 1%nat)%nat ->
        g r = slope f (activity f wa Wa xa 1 r) * (ea 0%nat * Va 0%nat (S r))).
  Proof.
    intros HA HV HD Hd (Da & A1 & A2 & A3 & A4 & A5) (Db & B1 & B2 & B3 & B4 & B5).
    pose proof (activity_agree Wa Wb xa xb HA HD) as Hact.
    set (aa := activity f wa Wa xa) in *. set (ab := activity f wb Wb xb) in *.
    assert (WQ : wb Q = wa Q) by (apply Hw; lia).
    assert (He : forall r, (r < o)%nat -> eb r = ea r).
    { intros r Hr0. rewrite A1, B1, Hd by exact Hr0. f_equal. unfold response. rewrite WQ, (HV r 0%nat) by lia. f_equal.
      apply sumn_ext. intros j Hj. rewrite (HV r (S j)) by lia. rewrite Hact by lia. reflexivity. }
    assert (HDl : forall j q, (q + S j = Q)%nat -> forall r, (r < wa (S q))%nat -> Db q r = Da q r).
    { induction j as [|j IH]; intros q Hq r Hr0.
      - replace q with (Q - 1)%nat in * by lia. replace (S (Q - 1)) with Q in Hr0 by lia. rewrite A4, B4 by (rewrite ?WQ; exact Hr0).
        rewrite Hact by lia. f_equal. destruct (Nat.eqb_spec o 1) as [E|E].
        + rewrite He by lia. rewrite (HV 0%nat (S r)) by lia. reflexivity.
        + f_equal. apply sumn_ext. intros i Hi. rewrite He by exact Hi. rewrite (HV i (S r)) by lia. reflexivity.
      - rewrite A5, B5 by (rewrite ?Hw by lia; auto; lia). rewrite Hact by lia. f_equal. rewrite Hw by lia.
        apply sumn_ext. intros i Hi. rewrite (IH (S q)) by lia. f_equal.
        rewrite A3, B3 by (rewrite ?Hw by lia; auto; lia). rewrite (HA (S q) i (S r)) by lia. rewrite Hr by lia. rewrite (IH (S q)) by lia.
        cbn [lead]. rewrite (Hact (S q)) by lia. reflexivity. }
    split; [exact He|]. split.
    { intros r c Hr0 Hc. rewrite A2, B2 by (rewrite ?WQ; auto). rewrite HV, He by auto. f_equal. f_equal. destruct c as [|c]; cbn [lead]; [reflexivity|]. apply Hact; lia. }
    split.
    { intros q r c Hq Hr0 Hc. rewrite A3, B3 by (rewrite ?Hw by lia; auto; lia). rewrite HA by auto. rewrite Hr by lia. rewrite (HDl (Q - S q)%nat) by lia.
      f_equal. f_equal. destruct c as [|c]; cbn [lead]; [reflexivity|]. apply Hact; lia. }
    exists (Da 0%nat). split; [|split].
    - intros r c Hr0 Hc. apply A3; auto.
    - intros r c Hr0 Hc. rewrite B3 by (rewrite ?Hw by lia; auto). rewrite (HDl (Q - 1)%nat) by lia. reflexivity.
    - intros EQ Eo r Hr0. specialize (A4 r). rewrite EQ, Eo in A4. exact (A4 Hr0).
  Qed.
End Agree.

Section C115.
  Variable solve : list rvec -> list rvec -> option (list rvec).
  #[local] Hint Extern 0 (Num R) => exact (RNum solve) : typeclass_instances.
  Notation net := (net R).
  Notation val := (val R).

  (** the direction v (v 0 for the constant, v (j+1) for input j) is never shown by the input x *)
  Definition unseen (k : nat) (v : nat -> R) (x : rvec) : Prop := v 0%nat + sumn k (fun j => v (S j) * nth j x 0) = 0.
  (** the component along v of the weights of node r of the first hidden layer *)
  Definition along (k : nat) (v : nat -> R) (n : net) (r : nat) : R := sumn (S k) (fun c => v c * hidden_w n 0 r c).

  Lemma lead_unseen k v x : unseen k v x -> sumn (S k) (fun c => v c * lead (fun j => nth j x 0) c) = 0.
  Proof. unfold unseen. intros H. rewrite sumn_S_l. cbn [lead]. rewrite Rmult_1_r. exact H. Qed.

  Lemma errs sizes k o f mu (n : net) s : net_of sizes k o f mu n -> sample_ok k o s ->
    exists e, snd (net_update (snd s) (fst (net_predict (fst s) n))) = Ok e /\ minus (snd s) (forward n (fst s)) = e /\
      learning_step f (width k sizes) (length sizes) o (fun q => rate_of mu (width k sizes q)) (rate_of mu (width k sizes (length sizes)))
        (fun j => nth j (fst s) 0) (comp (snd s)) (hidden_w n) (out_w n) (hidden_w (learn n s)) (out_w (learn n s)) (comp e).
  Proof.
    intros Hn (Xa & Da). destruct (C66_learning_step solve _ _ _ _ _ n (fst s) (snd s) Hn Xa Da) as (y & e & _ & E2 & _ & L).
    cbv zeta in L. rewrite <- surjective_pairing in L. exists e. split; [exact E2|]. split; [|exact L].
    destruct (C48_step_succeeds _ _ _ n (fst s) (snd s) (net_of_reach _ _ _ _ _ _ Hn) Xa Da) as (_ & U). cbv zeta in U. rewrite U in E2.
    apply (f_equal (fun r => match r with Ok a => a | Err _ => e end)) in E2. exact E2.
  Qed.
  Lemma size_pos sizes k o f mu (n : net) : net_of sizes k o f mu n -> (0 < length sizes)%nat.
  Proof. intros H. exact (sizes_pos solve _ _ _ _ (net_reach_ok _ _ _ _ (net_of_reach _ _ _ _ _ _ H))). Qed.

  (** training never changes the component of the first-layer weights along an unseen direction *)
  Theorem C115_never_learned : forall sizes n_input outputs f mu n l v r,
    net_of sizes n_input outputs f mu n -> Forall (sample_ok n_input outputs) l -> (forall s, In s l -> unseen n_input v (fst s)) ->
    (r < width n_input sizes 1)%nat -> along n_input v (learned n l) r = along n_input v n r.
  Proof.
    intros sizes k o f mu n l v r Hn Fl Hu Hr. revert n Hn. induction l as [|s l IH]; intros n Hn; [reflexivity|].
    inversion Fl as [|? ? Hs Fl']; subst. change (learned n (s :: l)) with (learned (learn n s) l).
    rewrite IH; [|exact Fl'|intros s' Hs'; apply Hu; right; exact Hs'|apply net_of_learn; exact Hn].
    destruct (errs _ _ _ _ _ n s Hn Hs) as (e & _ & _ & (D & _ & _ & A3 & _ & _)). pose proof (size_pos _ _ _ _ _ _ Hn) as HQ.
    unfold along. rewrite (sumn_ext _ _ (fun c => v c * hidden_w n 0 r c + rate_of mu (width k sizes 0) * D 0%nat r * (v c * lead (fun j => nth j (fst s) 0) c))).
    - rewrite sumn_plus, sumn_scal, (lead_unseen k v (fst s)) by (apply Hu; left; reflexivity). ring.
    - intros c Hc. rewrite A3 by (auto; unfold width; cbn [nth]; lia). cbv beta. cbn [activity]. ring.
  Qed.

  (** two networks that differ only by multiples of v in the weights of their first-layer nodes *)
  Definition shifted (sizes : list nat) (k o : nat) (v g : nat -> R) (na nb : net) : Prop :=
    same_above (width k sizes) (length sizes) (hidden_w na) (hidden_w nb) /\ same_out (width k sizes) (length sizes) o (out_w na) (out_w nb) /\
    forall r c, (r < width k sizes 1)%nat -> (c <= k)%nat -> hidden_w nb 0 r c = hidden_w na 0 r c + g r * v c.

  Lemma drive_shift sizes k o v g (na nb : net) x r : shifted sizes k o v g na nb -> unseen k v x -> (r < width k sizes 1)%nat ->
    drive (width k sizes) (hidden_w nb) (fun j => nth j x 0) r = drive (width k sizes) (hidden_w na) (fun j => nth j x 0) r.
  Proof.
    intros (_ & _ & H) Hu Hr. unfold drive. change (width k sizes 0) with k. rewrite (H r 0%nat Hr) by lia.
    rewrite (sumn_ext k _ (fun j => hidden_w na 0 r (S j) * nth j x 0 + g r * (v (S j) * nth j x 0))) by (intros j Hj; rewrite (H r (S j) Hr) by lia; ring).
    rewrite sumn_plus, sumn_scal. unfold unseen in Hu. assert (E : sumn k (fun j => v (S j) * nth j x 0) = - v 0%nat) by lra. rewrite E. ring.
  Qed.

  (** they make the same errors on every training sequence that does not show v, and keep exactly their difference *)
  Theorem C115_never_used : forall sizes n_input outputs f mu na nb l v g,
    net_of sizes n_input outputs f mu na -> net_of sizes n_input outputs f mu nb -> shifted sizes n_input outputs v g na nb ->
    Forall (sample_ok n_input outputs) l -> (forall s, In s l -> unseen n_input v (fst s)) ->
    shifted sizes n_input outputs v g (learned na l) (learned nb l) /\
    Forall2 (fun ea eb => forall r, (r < outputs)%nat -> comp eb r = comp ea r) (errors na l) (errors nb l).
  Proof.
    intros sizes k o f mu na nb l v g Ha Hb HS Fl Hu. revert na nb Ha Hb HS.
    induction l as [|s l IH]; intros na nb Ha Hb HS; [split; [exact HS|constructor]|].
    inversion Fl as [|? ? Hs Fl']; subst. specialize (IH Fl' (fun s' Hs' => Hu s' (or_intror Hs'))).
    destruct (errs _ _ _ _ _ na s Ha Hs) as (ea & _ & Ea & La). destruct (errs _ _ _ _ _ nb s Hb Hs) as (eb & _ & Eb & Lb).
    pose proof (size_pos _ _ _ _ _ _ Ha) as HQ. pose proof HS as (S1 & S2 & S3).
    destruct (step_agree f _ _ _ o _ _ _ HQ (fun _ _ => eq_refl) (fun _ _ => eq_refl) _ _ _ _ _ _ _ _ _ _ _ _ _ _ S1 S2
      (fun r Hr => drive_shift sizes k o v g na nb (fst s) r HS (Hu s (or_introl eq_refl)) Hr) (fun _ _ => eq_refl) La Lb) as (T1 & T2 & T3 & d & T4 & T5 & _).
    assert (HS' : shifted sizes k o v g (learn na s) (learn nb s)).
    { split; [exact T3|]. split; [exact T2|]. intros r c Hr Hc. rewrite T4, T5 by (auto; exact Hc). rewrite S3 by auto. ring. }
    destruct (IH (learn na s) (learn nb s) (net_of_learn solve _ _ _ _ _ _ _ Ha) (net_of_learn solve _ _ _ _ _ _ _ Hb) HS') as (I1 & I2).
    split; [exact I1|]. cbn [errors]. rewrite Ea, Eb. constructor; [exact T1|exact I2].
  Qed.

  Lemma sumn_one m (h : nat -> R) i : (i < m)%nat -> (forall j, (j < m)%nat -> j <> i -> h j = 0) -> sumn m h = h i.
  Proof.
    intros Hi. induction m as [|m IH]; intros H; [lia|]. cbn [sumn]. destruct (Nat.eq_dec i m) as [->|E].
    - rewrite (sumn_ext m h (fun _ => 0)) by (intros j Hj; apply H; lia). rewrite sumn_0. ring.
    - rewrite IH by (try lia; intros; apply H; lia). rewrite (H m) by lia. ring.
  Qed.
  Lemma sumn_two m (h : nat -> R) i j : (i < m)%nat -> (j < m)%nat -> i <> j -> (forall t, (t < m)%nat -> t <> i -> t <> j -> h t = 0) -> sumn m h = h i + h j.
  Proof.
    intros Hi Hj Hij H. rewrite (sumn_ext m h (fun t => (if Nat.eqb t i then h i else 0) + (if Nat.eqb t j then h j else 0))).
    - rewrite sumn_plus. f_equal.
      + rewrite (sumn_one m _ i Hi); [rewrite Nat.eqb_refl; reflexivity|]. intros t _ Ht. apply Nat.eqb_neq in Ht. rewrite Ht. reflexivity.
      + rewrite (sumn_one m _ j Hj); [rewrite Nat.eqb_refl; reflexivity|]. intros t _ Ht. apply Nat.eqb_neq in Ht. rewrite Ht. reflexivity.
    - intros t Ht. destruct (Nat.eqb_spec t i) as [Ei|Ei], (Nat.eqb_spec t j) as [Ej|Ej]; try lia; rewrite ?Rplus_0_r, ?Rplus_0_l; try (rewrite H by assumption); subst; auto; ring.
  Qed.

  (** an input that is always zero keeps its weights; one that is always c moves its weight c times as much as the bias;
      two inputs that are always equal move their weights alike *)
  Theorem C115_special_inputs : forall sizes n_input outputs f mu n l r,
    net_of sizes n_input outputs f mu n -> Forall (sample_ok n_input outputs) l -> (r < width n_input sizes 1)%nat ->
    let moved c := hidden_w (learned n l) 0 r c - hidden_w n 0 r c in
    (forall i, (i < n_input)%nat -> (forall s, In s l -> nth i (fst s) 0 = 0) -> moved (S i) = 0) /\
    (forall i a, (i < n_input)%nat -> (forall s, In s l -> nth i (fst s) 0 = a) -> moved (S i) = a * moved 0%nat) /\
    (forall i j, (i < n_input)%nat -> (j < n_input)%nat -> (forall s, In s l -> nth i (fst s) 0 = nth j (fst s) 0) -> moved (S i) = moved (S j)).
  Proof.
    intros sizes k o f mu n l r Hn Fl Hr moved.
    assert (HC : forall i a, (i < k)%nat -> (forall s, In s l -> nth i (fst s) 0 = a) -> moved (S i) = a * moved 0%nat).
    { intros i a Hi Ha. set (v := fun c => match c with O => a | S j => if Nat.eqb j i then -1 else 0 end).
      assert (Hu : forall s, In s l -> unseen k v (fst s)).
      { intros s Hs. unfold unseen. rewrite (sumn_one k _ i Hi); [|intros j _ Hj; unfold v; apply Nat.eqb_neq in Hj; rewrite Hj; ring].
        unfold v. rewrite Nat.eqb_refl, (Ha s Hs). ring. }
      pose proof (C115_never_learned sizes k o f mu n l v r Hn Fl Hu Hr) as H. unfold along in H. rewrite !sumn_S_l in H.
      rewrite !(sumn_one k _ i Hi) in H by (intros j _ Hj; unfold v; apply Nat.eqb_neq in Hj; rewrite Hj; ring).
      unfold v in H. rewrite Nat.eqb_refl in H. unfold moved. lra. }
    split; [|split; [exact HC|]].
    - intros i Hi H0. rewrite (HC i 0 Hi H0). ring.
    - intros i j Hi Hj He. destruct (Nat.eq_dec i j) as [->|Hij]; [reflexivity|].
      set (v := fun c => match c with O => 0 | S t => if Nat.eqb t i then 1 else if Nat.eqb t j then -1 else 0 end).
      assert (Vi : v (S i) = 1) by (unfold v; rewrite Nat.eqb_refl; reflexivity).
      assert (Vj : v (S j) = -1) by (unfold v; rewrite Nat.eqb_refl; replace (Nat.eqb j i) with false by (symmetry; apply Nat.eqb_neq; lia); reflexivity).
      assert (V0 : forall t, t <> i -> t <> j -> v (S t) = 0) by (intros t H1 H2; unfold v; apply Nat.eqb_neq in H1, H2; rewrite H1, H2; reflexivity).
      assert (Hu : forall s, In s l -> unseen k v (fst s)).
      { intros s Hs. unfold unseen. rewrite (sumn_two k _ i j Hi Hj Hij); [|intros t _ H1 H2; rewrite V0 by assumption; ring].
        rewrite Vi, Vj, (He s Hs). cbn [v]. ring. }
      pose proof (C115_never_learned sizes k o f mu n l v r Hn Fl Hu Hr) as H. unfold along in H. rewrite !sumn_S_l in H.
      rewrite !(sumn_two k _ i j Hi Hj Hij) in H by (intros t _ H1 H2; rewrite V0 by assumption; ring).
      rewrite Vi, Vj in H. cbn [v] in H. unfold moved. lra.
  Qed.
  (** the same for train, with any number of epochs and any shuffle *)
  Lemma In_stream ep (data : list (rvec * val)) s : In s (stream ep data) -> In s data.
  Proof. unfold stream. intros H. apply in_concat in H as (l & Hl & Hs). apply repeat_spec in Hl. subst l. exact Hs. Qed.
  Theorem C115_train : forall sizes n_input outputs f mu n x d ds epochs shuffle v r,
    net_of sizes n_input outputs f mu n -> rows_of n_input x -> x <> [] -> fits outputs (length x) d ds ->
    (forall idx, shuffle = Some idx -> Permutation idx (seq 0 (length x))) ->
    (forall u, In u x -> unseen n_input v u) -> (r < width n_input sizes 1)%nat ->
    exists n' e mse, net_train x d epochs shuffle n = (n', Ok (e, mse)) /\ along n_input v n' r = along n_input v n r.
  Proof.
    intros sizes k o f mu n x d ds ep sh v r Hn Hx Hne Hf Hs Hu Hr.
    destruct (C47_train sizes k o n x d ds ep sh (net_of_reach _ _ _ _ _ _ Hn) Hx Hne Hf Hs) as (data & HP & _ & e & mse & E & _).
    eexists _, e, mse. split; [exact E|].
    assert (HD : forall s, In s (stream ep data) -> In (fst s) x /\ In (snd s) ds).
    { intros s Hs'. apply In_stream in Hs'. apply (Permutation_in _ HP) in Hs'. destruct s as (a & b).
      split; [exact (in_combine_l _ _ _ _ Hs')|exact (in_combine_r _ _ _ _ Hs')]. }
    apply (C115_never_learned sizes k o f mu n (stream ep data) v r Hn); [|intros s Hs'; apply Hu; apply HD; exact Hs'|exact Hr].
    apply Forall_forall. intros s Hs'. destruct (HD s Hs') as (H1 & H2). unfold rows_of in Hx. rewrite Forall_forall in Hx. split; [apply Hx; exact H1|].
    destruct d; cbn [fits] in Hf; try contradiction; [destruct Hf as (-> & -> & _)|destruct Hf as (Ho & _ & -> & _ & Hrw)].
    - apply in_map_iff in H2 as (a & <- & _). reflexivity.
    - apply in_map_iff in H2 as (a & <- & Ha). unfold rows_of in Hrw. rewrite Forall_forall in Hrw. specialize (Hrw a Ha). unfold vlen. auto.
  Qed.

  (** the second network is the first one without its last input *)
  Definition narrower (sizes : list nat) (k o : nat) (na nb : net) : Prop :=
    same_above (width (S k) sizes) (length sizes) (hidden_w na) (hidden_w nb) /\ same_out (width (S k) sizes) (length sizes) o (out_w na) (out_w nb) /\
    forall r c, (r < width k sizes 1)%nat -> (c <= k)%nat -> hidden_w nb 0 r c = hidden_w na 0 r c.
  (** the sample with a further input that is zero *)
  Definition widened (s : rvec * val) : rvec * val := (fst s ++ [0], snd s).

  Lemma drive_narrow sizes k o (na nb : net) x r : narrower sizes k o na nb -> length x = k -> (r < width k sizes 1)%nat ->
    drive (width k sizes) (hidden_w nb) (fun j => nth j x 0) r = drive (width (S k) sizes) (hidden_w na) (fun j => nth j (x ++ [0]) 0) r.
  Proof.
    intros (_ & _ & H) Hx Hr. unfold drive. change (width k sizes 0) with k. change (width (S k) sizes 0) with (S k). cbn [sumn].
    rewrite (app_nth2 x) by lia. rewrite Hx, Nat.sub_diag. cbn [nth]. rewrite Rmult_0_r, Rplus_0_r, (H r 0%nat Hr) by lia. f_equal.
    apply sumn_ext. intros j Hj. rewrite (H r (S j) Hr) by lia. rewrite app_nth1 by lia. reflexivity.
  Qed.

  (** with a numeric mu, an input that is always zero may as well be left out *)
  Theorem C115_dead_input_left_out : forall sizes n_input outputs f a na nb l,
    net_of sizes (S n_input) outputs f (MuNum a) na -> net_of sizes n_input outputs f (MuNum a) nb -> narrower sizes n_input outputs na nb ->
    Forall (sample_ok n_input outputs) l ->
    narrower sizes n_input outputs (learned na (map widened l)) (learned nb l) /\
    Forall2 (fun ea eb => forall r, (r < outputs)%nat -> comp eb r = comp ea r) (errors na (map widened l)) (errors nb l).
  Proof.
    intros sizes k o f a na nb l Ha Hb HS Fl. revert na nb Ha Hb HS.
    induction l as [|s l IH]; intros na nb Ha Hb HS; [split; [exact HS|constructor]|].
    inversion Fl as [|? ? Hs Fl']; subst. specialize (IH Fl').
    assert (Hs' : sample_ok (S k) o (widened s)) by (destruct Hs as (H1 & H2); split; [cbn [widened fst]; rewrite app_length, H1; cbn [length]; lia|exact H2]).
    destruct (errs _ _ _ _ _ na _ Ha Hs') as (ea & _ & Ea & La). destruct (errs _ _ _ _ _ nb s Hb Hs) as (eb & _ & Eb & Lb).
    pose proof (size_pos _ _ _ _ _ _ Ha) as HQ. pose proof HS as (S1 & S2 & S3).
    cbn [rate_of] in La, Lb.
    assert (W1' : forall q, (1 <= q <= length sizes)%nat -> width k sizes q = width (S k) sizes q) by (intros [|q] Hq; [lia|reflexivity]).
    destruct (step_agree f (width (S k) sizes) (width k sizes) (length sizes) o (fun _ => a) (fun _ => a) a HQ W1' (fun _ _ => eq_refl)
      _ _ _ _ _ _ _ _ _ _ _ _ _ _ S1 S2 (fun r Hr => drive_narrow sizes k o na nb (fst s) r HS (proj1 Hs) Hr) (fun _ _ => eq_refl) La Lb) as (T1 & T2 & T3 & d & T4 & T5 & _).
    assert (HS' : narrower sizes k o (learn na (widened s)) (learn nb s)).
      { split; [exact T3|]. split; [exact T2|]. intros r c Hr Hc. rewrite T4, T5 by (auto; change (width (S k) sizes 0) with (S k); lia). rewrite S3 by auto.
        f_equal. f_equal. destruct c as [|c]; cbn [lead]; [reflexivity|]. cbn [widened fst]. rewrite app_nth1 by (rewrite (proj1 Hs); lia). reflexivity. }
      destruct (IH (learn na (widened s)) (learn nb s) (net_of_learn solve _ _ _ _ _ _ _ Ha) (net_of_learn solve _ _ _ _ _ _ _ Hb) HS') as (I1 & I2).
      split; [exact I1|]. cbn [map errors]. rewrite Ea, Eb. constructor; [exact T1|exact I2].
  Qed.

  (** with mu = "auto" leaving it out changes the learning rate of the first layer *)
  Theorem C115_auto_refuted : exists (na nb : net) d,
    net_of [1]%nat 2 1 Sigmoid MuAuto na /\ net_of [1]%nat 1 1 Sigmoid MuAuto nb /\ narrower [1]%nat 1 1 na nb /\
    sample_ok 1 1 ([1], VNum d) /\
    hidden_w (learn nb ([1], VNum d)) 0 0 1 <> hidden_w (learn na (widened ([1], VNum d))) 0 0 1.
  Proof.
    assert (Ea : exists na : net, new_net z_rng1 z_rng [1]%nat 2 1 Sigmoid MuAuto = Ok na /\ hidden_w na = hidden_w na) by (eexists; split; reflexivity).
    destruct (new_net z_rng1 z_rng [1]%nat 2 1 Sigmoid MuAuto) as [na|] eqn:EA; [|destruct Ea as (? & H & _); discriminate H]. clear Ea.
    assert (Eb : exists nb : net, new_net z_rng1 z_rng [1]%nat 1 1 Sigmoid MuAuto = Ok nb) by (eexists; reflexivity).
    destruct (new_net z_rng1 z_rng [1]%nat 1 1 Sigmoid MuAuto) as [nb|] eqn:EB; [|destruct Eb as (? & H); discriminate H]. clear Eb.
    assert (Ha : net_of [1]%nat 2 1 Sigmoid MuAuto na) by (apply (made _ _ _ _ _ z_rng1 z_rng); [apply z_rngs_ok|exact EA]).
    assert (Hb : net_of [1]%nat 1 1 Sigmoid MuAuto nb) by (apply (made _ _ _ _ _ z_rng1 z_rng); [apply z_rngs_ok|exact EB]).
    assert (Wa : forall c, (c <= 2)%nat -> hidden_w na 0 0 c = 1 / 3) by (injection EA as <-; intros [|[|[|c]]] Hc; try reflexivity; lia).
    assert (Wb : forall c, (c <= 1)%nat -> hidden_w nb 0 0 c = 1 / 3) by (injection EB as <-; intros [|[|c]] Hc; try reflexivity; lia).
    assert (Va : forall c, (c <= 1)%nat -> out_w na 0 c = 1 / 2) by (injection EA as <-; intros [|[|c]] Hc; try reflexivity; lia).
    assert (Vb : forall c, (c <= 1)%nat -> out_w nb 0 c = 1 / 2) by (injection EB as <-; intros [|[|c]] Hc; try reflexivity; lia).
    assert (HN : narrower [1]%nat 1 1 na nb).
    { split; [intros q r c Hq; cbn [length] in Hq; lia|]. split.
      - intros r c Hr Hc. change (width 2 [1%nat] (length [1%nat])) with 1%nat in Hc. replace r with 0%nat by lia. rewrite Va, Vb by exact Hc. reflexivity.
      - intros r c Hr Hc. change (width 1 [1%nat] 1) with 1%nat in Hr. replace r with 0%nat by lia. rewrite Wa, Wb by lia. reflexivity. }
    set (wd := width 2 [1%nat]). set (act1 := activity Sigmoid wd (hidden_w na) (fun j => nth j [1; 0] 0)).
    set (d := response (wd 1%nat) (out_w na) (act1 1%nat) 0%nat + 1).
    assert (Hs : sample_ok 1 1 ([1], VNum d)) by (split; reflexivity).
    assert (Hs' : sample_ok 2 1 (widened ([1], VNum d))) by (split; reflexivity).
    exists na, nb, d. split; [exact Ha|]. split; [exact Hb|]. split; [exact HN|]. split; [exact Hs|].
    destruct (errs _ _ _ _ _ na _ Ha Hs') as (ea & _ & _ & La). destruct (errs _ _ _ _ _ nb _ Hb Hs) as (eb & _ & _ & Lb).
    pose proof HN as (S1 & S2 & S3).
    assert (W1' : forall q, (1 <= q <= length [1%nat])%nat -> width 1 [1%nat] q = width 2 [1%nat] q) by (intros [|q] Hq; [lia|reflexivity]).
    destruct (step_agree Sigmoid (width 2 [1%nat]) (width 1 [1%nat]) (length [1%nat]) 1 _ _ _ ltac:(cbn; lia) W1' (fun q Hq => ltac:(cbn [length] in Hq; lia))
      _ _ _ _ _ _ _ _ _ _ _ _ _ _ S1 S2 (fun r Hr => drive_narrow [1%nat] 1 1 na nb [1] r HN eq_refl Hr) (fun _ _ => eq_refl) La Lb) as (_ & _ & _ & g & T4 & T5 & T6).
    specialize (T6 eq_refl eq_refl 0%nat ltac:(cbn; lia)).
    destruct La as (Dl & A1 & _). specialize (A1 0%nat ltac:(lia)).
    assert (E1 : comp ea 0 = 1). { rewrite A1. cbn [widened fst snd app comp]. unfold d, act1. change (width 2 [1%nat] (length [1%nat])) with (wd 1%nat). change (length [1%nat]) with 1%nat. fold wd. lra. }
    rewrite E1, Va in T6 by lia.
    rewrite T4, T5 by (cbn; lia). rewrite Wa, Wb by lia.
    cbn [lead nth fst widened app]. change (rate_of MuAuto (width 1 [1%nat] 0)) with (/ sqrt (INR 1)). change (rate_of MuAuto (width 2 [1%nat] 0)) with (/ sqrt (INR 2)).
    assert (G : 0 < g 0%nat).
    { rewrite T6. cbn [slope activity]. match goal with |- context [squash Sigmoid ?z] => generalize z end. intros z. cbn [squash].
      pose proof (C45_sigmoid_range solve z) as Hz. change (act Sigmoid z) with (logistic z) in Hz. set (y := logistic z) in *. clearbody y. assert (0 < y * (1 - y)) by (apply Rmult_lt_0_compat; lra). lra. }
    change (INR 1) with 1. replace (INR 2) with 2 by (cbn; lra). rewrite sqrt_1, Rinv_1.
    assert (S2' : 1 < sqrt 2) by (rewrite <- sqrt_1; apply sqrt_lt_1; lra). assert (/ sqrt 2 < 1) by (rewrite <- Rinv_1; apply Rinv_lt_contravar; lra).
    nra.
  Qed.

  (** concrete cases: the network of C68 with two inputs; the direction v = (0, 1, -1) of equal inputs, and of a constant input *)
  Example C115_hypotheses :
    net_of [2]%nat 2 1 Tanh (MuNum (1 / 4)) z_net /\ Forall (sample_ok 2 1) [([1; 1], VNum 3); ([2; 2], VNum 0)] /\
    (forall s : rvec * val, In s [([1; 1], VNum 3); ([2; 2], VNum 0)] -> unseen 2 (fun c => match c with 1%nat => 1 | 2%nat => -1 | _ => 0 end) (fst s)) /\
    (exists nb, net_of [2]%nat 2 1 Tanh (MuNum (1 / 4)) nb /\
      shifted [2]%nat 2 1 (fun c => match c with 1%nat => 1 | 2%nat => -1 | _ => 0 end) (fun r => INR r + 1) z_net nb) /\
    (exists nb, net_of [2]%nat 1 1 Tanh (MuNum (1 / 4)) nb /\ narrower [2]%nat 1 1 z_net nb).
  Proof.
    split; [apply z_net_of|]. split; [repeat constructor|].
    split. { intros s [<-|[<-|[]]]; unfold unseen; cbn; lra. }
    split.
    - set (rng := fun (i : nat) (s : R) (r c : nat) => if Nat.eqb r 2 then (if Nat.eqb c 3 then [[1 / 3; 4 / 3; - (2 / 3)]; [1 / 3; 7 / 3; - (5 / 3)]] else repeat (repeat (1 / 3) c) r) else repeat (repeat (1 / 3) c) r : rmat).
      assert (OK : rngs_ok z_rng1 rng).
      { split; [intros s k; apply repeat_length|]. intros i s r c. unfold rng. destruct (Nat.eqb_spec r 2) as [->|E]; [destruct (Nat.eqb_spec c 3) as [->|E2]|].
        - split; [reflexivity|]. repeat constructor.
        - split; [reflexivity|]. apply Forall_forall. intros a Ha. apply repeat_spec in Ha; subst. apply repeat_length.
        - split; [apply repeat_length|]. apply Forall_forall. intros a Ha. apply repeat_spec in Ha; subst. apply repeat_length. }
      destruct (new_net z_rng1 rng [2]%nat 2 1 Tanh (MuNum (1 / 4))) as [nb|] eqn:E; [|discriminate E].
      exists nb. split; [apply (made _ _ _ _ _ z_rng1 rng); [exact OK|exact E]|].
      injection E as <-. split; [|split].
      + intros q r c Hq. cbn [length] in Hq. lia.
      + intros r c Hr Hc. change (width 2 [2%nat] (length [2%nat])) with 2%nat in Hc. destruct c as [|[|[|c]]]; [| | |lia]; reflexivity.
      + intros r c Hr Hc. change (width 2 [2%nat] 1) with 2%nat in Hr. destruct r as [|[|r]]; [| |lia]; (destruct c as [|[|[|c]]]; [| | |lia]); cbn; lra.
    - destruct (new_net z_rng1 z_rng [2]%nat 1 1 Tanh (MuNum (1 / 4))) as [nb|] eqn:E; [|discriminate E].
      exists nb. split; [apply (made _ _ _ _ _ z_rng1 z_rng); [apply z_rngs_ok|exact E]|].
      injection E as <-. split; [|split].
      + intros q r c Hq. cbn [length] in Hq. lia.
      + intros r c Hr Hc. change (width 2 [2%nat] (length [2%nat])) with 2%nat in Hc. destruct c as [|[|[|c]]]; [| | |lia]; reflexivity.
      + intros r c Hr Hc. change (width 1 [2%nat] 1) with 2%nat in Hr. destruct r as [|[|r]]; [| |lia]; (destruct c as [|[|c]]; [| |lia]); reflexivity.
  Qed.

End C115.
