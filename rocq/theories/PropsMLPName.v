(** Property C81: a network built with an unknown activation name is accepted, answers nan to everything, and cannot be
    trained: update raises TypeError, and not before it has overwritten all output weights with nan. *)
From Coq Require Import QArith Permutation.
From Verif Require Import Py Num Numpy Spec StructProofs Mlp MlpUnknown PropsMLP PropsNanMLP.
Open Scope nat_scope.

Section C81.
  Context {T : Type} {NT : Num T}.
  Notation vec := (list T).
  Notation mat := (list (list T)).
  Notation net := (net T).
  Notation layer := (layer T).
  Notation val := (val T).
  Variable nan : T.
  Hypothesis HB : passed_on nan.

  (** ** Specification *)
  (** made by the constructor (which ignores the name: f does not matter), then used in any way *)
  Inductive unknown_net (sizes : list nat) (n_input outputs : nat) : net -> Prop :=
  | un_new rng1 rng f mu n : rngs_ok rng1 rng -> new_net rng1 rng sizes n_input outputs f mu = Ok n -> unknown_net sizes n_input outputs n
  | un_predict x n : unknown_net sizes n_input outputs n -> unknown_net sizes n_input outputs (fst (net_predict_u nan x n))
  | un_update d n : unknown_net sizes n_input outputs n -> unknown_net sizes n_input outputs (fst (net_update_u d n))
  | un_train x d k s n : unknown_net sizes n_input outputs n -> unknown_net sizes n_input outputs (fst (net_train_u nan x d k s n))
  | un_run x n : unknown_net sizes n_input outputs n -> unknown_net sizes n_input outputs (fst (net_run_u nan x n)).
  Definition out_weights (n : net) : mat := match m_w n with W1 w => [w] | W2 W => W end.

  (** ** Invariant *)
  Lemma tail_u a k x xs : starts_one k a -> assign_tail_u nan a k x = Ok xs -> starts_one k xs.
  Proof.
    intros Ha H. destruct x as [v|]; [exact (assign_tail_ok a k v xs Ha H)|]. cbn in H. injection H as <-.
    destruct Ha as (t & -> & Ht). exists (repeat nan k). split; [reflexivity|apply repeat_length].
  Qed.
  Lemma layers_u sizes : forall ls k x, ls_ok k sizes ls -> ls_ok k sizes (fst (predict_layers_u nan ls x)).
  Proof.
    induction sizes as [|s sizes IH]; intros [|l ls] k x H; simpl in H; auto; try contradiction.
    destruct H as (H1 & H2 & H3 & H4). cbn [predict_layers_u]. unfold layer_predict_u.
    destruct (assign_tail_u nan (l_x l) (l_n l) x) as [xs|] eqn:E; [|exact (conj H1 (conj H2 (conj H3 H4)))].
    rewrite H1 in E. apply (tail_u _ _ _ _ H3) in E. specialize (IH ls s None H4). destruct (predict_layers_u nan ls None) as [ls' r].
    cbn [fst ls_ok l_n l_w l_x]. split; [exact H1|]. split; [exact H2|]. split; [exact E|exact IH].
  Qed.
  Lemma predict_u_ok sizes k o x n : net_ok sizes k o n -> net_ok sizes k o (fst (net_predict_u nan x n)).
  Proof.
    intros (H1 & H2 & H3 & H4 & H5 & H6). unfold net_predict_u.
    pose proof (layers_u sizes (m_layers n) k (Some x) H4) as Hp.
    destruct (predict_layers_u nan (m_layers n) (Some x)) as [ls [h|e]]; simpl in Hp; [|repeat (split; auto)].
    destruct (assign_tail_u _ _ _ _) as [xs|] eqn:E; [|repeat (split; auto)].
    pose proof (starts_one_len _ _ H5) as Hl. replace (length (m_x n) - 1) with (last sizes 0) in E by lia.
    apply (tail_u _ _ _ _ H5) in E.
    match goal with |- context [match ?r with Ok _ => _ | Err _ => _ end] => destruct r end; repeat (split; auto).
  Qed.
  Lemma update_layers_u_eq (ls : list layer) w e : ls <> [] -> update_layers_u ls w e = (ls, Err TypeError).
  Proof.
    induction ls as [|l ls IH]; intros H; [contradiction|]. cbn [update_layers_u]. destruct ls as [|l2 ls]; [reflexivity|].
    rewrite IH by discriminate. reflexivity.
  Qed.
  Lemma layers_ne sizes k ls : ls_ok k sizes ls -> sizes <> [] -> ls <> [].
  Proof. destruct sizes, ls; simpl; try contradiction; discriminate. Qed.
  Lemma update_u_ok sizes k o d n : net_ok sizes k o n -> net_ok sizes k o (fst (net_update_u d n)).
  Proof.
    intros H. unfold net_update_u. destruct (val_sub d (m_y n)) as [e|] eqn:Ev; [|exact H].
    pose proof (net_update_inv sizes k o d n H) as Hi. unfold net_update in Hi. rewrite Ev in Hi.
    destruct H as (H1 & H2 & H3 & H4 & H5 & H6). destruct (out_step _ _ _ _) as [[w' wold]|]; [|exact (conj H1 (conj H2 (conj H3 (conj H4 (conj H5 H6)))))].
    rewrite (update_layers_u_eq _ wold e (layers_ne _ _ _ H4 H3)). cbn [fst].
    destruct (update_layers (m_layers n) wold e) as [ls r]. destruct Hi as (_ & _ & _ & _ & _ & I6). cbn [fst m_w] in I6.
    repeat (split; auto).
  Qed.
  Lemma epoch_u_ok sizes k o data : forall n, net_ok sizes k o n -> net_ok sizes k o (fst (epoch_loop_u nan data n)).
  Proof.
    induction data as [|[x d] data IH]; intros n H; [exact H|]. cbn [epoch_loop_u]. unfold bind.
    pose proof (predict_u_ok _ _ _ x n H) as Hp. destruct (net_predict_u nan x n) as [n1' [y|]]; auto. cbn [fst] in Hp.
    pose proof (update_u_ok _ _ _ d n1' Hp) as Hu. destruct (net_update_u d n1') as [n2' [e|]]; cbn [fst] in *; auto.
    specialize (IH n2' Hu). destruct (epoch_loop_u nan data n2') as [n3 [es|]]; exact IH.
  Qed.
  Lemma epochs_u_ok sizes k o data : forall ep i e ms n, net_ok sizes k o n -> net_ok sizes k o (fst (epochs_loop_u nan ep i data e ms n)).
  Proof.
    induction ep as [|ep IH]; intros i e ms n H; [exact H|]. cbn [epochs_loop_u]. unfold bind.
    pose proof (epoch_u_ok _ _ _ data n H) as Hp. destruct (epoch_loop_u nan data n) as [n' [es|]]; cbn [fst] in *; auto.
  Qed.
  Lemma run_u_ok sizes k o x : forall n, net_ok sizes k o n -> net_ok sizes k o (fst (net_run_u nan x n)).
  Proof.
    induction x as [|r x IH]; intros n H; [exact H|]. cbn [net_run_u]. unfold bind.
    pose proof (predict_u_ok _ _ _ r n H) as Hp. destruct (net_predict_u nan r n) as [n1' [y|]]; auto. cbn [fst] in Hp.
    specialize (IH n1' Hp). destruct (net_run_u nan x n1') as [n3 [es|]]; exact IH.
  Qed.
  Lemma unknown_ok sizes k o n : unknown_net sizes k o n -> net_ok sizes k o n /\ 0 < k /\ Forall (fun s => 0 < s) sizes.
  Proof.
    induction 1 as [rng1 rng f mu n Hr Hn|x n H IH|d n H IH|x d ep s n H IH|x n H IH].
    - assert (R : net_reach sizes k o n) by (eapply reach_net; eauto). split; [apply net_reach_ok, R|]. exact (reach_pos _ _ _ _ R).
    - destruct IH as (I & J). split; [apply predict_u_ok, I|exact J].
    - destruct IH as (I & J). split; [apply update_u_ok, I|exact J].
    - destruct IH as (I & J). split; [|exact J]. unfold net_train_u. destruct (check_data x d n); [apply epochs_u_ok, I|exact I].
    - destruct IH as (I & J). split; [apply run_u_ok, I|exact J].
  Qed.

  Lemma predict_layers_u_eq sizes k ls x : ls_ok k sizes ls -> sizes <> [] -> length x = k ->
    snd (predict_layers_u nan ls (Some x)) = Ok None /\ map layer_par (fst (predict_layers_u nan ls (Some x))) = map layer_par ls.
  Proof.
    intros H Hne Hx. destruct sizes as [|s sizes]; [contradiction|]. destruct ls as [|l ls]; [simpl in H; contradiction|].
    destruct H as (H1 & H2 & H3 & H4). cbn [predict_layers_u]. unfold layer_predict_u. cbn [assign_tail_u].
    rewrite H1, (assign_tail_eq _ _ _ H3 Hx).
    assert (G : forall ls : list layer, snd (predict_layers_u nan ls None) = Ok None /\ map layer_par (fst (predict_layers_u nan ls None)) = map layer_par ls).
    { clear. induction ls as [|l ls (I1 & I2)]; [split; reflexivity|]. cbn [predict_layers_u]. unfold layer_predict_u. cbn [assign_tail_u].
      destruct (predict_layers_u nan ls None) as [ls' r]. cbn [fst snd map] in *. split; [exact I1|]. rewrite I2. reflexivity. }
    destruct (G ls) as (G1 & G2). destruct (predict_layers_u nan ls None) as [ls' r]. cbn [fst snd map] in *. split; [exact G1|]. rewrite G2. unfold layer_par; cbn. rewrite H1. reflexivity.
  Qed.

  (** *** C81 *)
  (** predict accepts every input of the right length and returns nan; no weight changes *)
  Theorem C81_predict : forall sizes n_input outputs n x, unknown_net sizes n_input outputs n -> length x = n_input ->
    params (fst (net_predict_u nan x n)) = params n /\
    exists y, snd (net_predict_u nan x n) = Ok y /\ vlen y outputs /\ all_bad nan (entries y) /\ m_y (fst (net_predict_u nan x n)) = y.
  Proof.
    intros sizes k o n x Hu Hx. destruct (unknown_ok _ _ _ _ Hu) as ((H1 & H2 & H3 & H4 & H5 & H6) & Hk & Hp). unfold net_predict_u.
    destruct (predict_layers_u_eq sizes k (m_layers n) x H4 H3 Hx) as (P1 & P2).
    destruct (predict_layers_u nan (m_layers n) (Some x)) as [ls r]. cbn [fst snd] in P1, P2. subst r. cbn [assign_tail_u].
    assert (Hl : 0 < last sizes 0).
    { destruct sizes as [|s sizes]; [contradiction|]. rewrite Forall_forall in Hp. apply Hp. clear.
      revert s. induction sizes as [|a r IH]; intros s; [left; reflexivity|]. right. change (last (s :: a :: r) 0) with (last (a :: r) 0). apply IH. }
    pose proof (starts_one_len _ _ H5) as Hxl. replace (length (m_x n) - 1) with (last sizes 0) by lia.
    destruct H5 as (t & -> & Ht). cbn [firstn app]. set (xs := n1 :: repeat nan (last sizes 0)).
    assert (Hin : In nan xs). { right. destruct (last sizes 0); [lia|left; reflexivity]. }
    assert (Lx : length xs = last sizes 0 + 1) by (unfold xs; cbn [length]; rewrite repeat_length; lia).
    destruct (m_w n) as [w|W] eqn:Ew.
    - destruct H6 as (Ho & Hw). unfold vdot. replace (length w =? length xs) with true by (symmetry; apply Nat.eqb_eq; lia). cbn [rmap fst snd].
      split; [unfold params; cbn; rewrite P2, Ew; reflexivity|]. eexists. split; [reflexivity|]. split; [exact Ho|]. split; [|reflexivity].
      constructor; [|constructor]. apply (po_dot _ HB); [lia|right; exact Hin].
    - destruct H6 as (Ho & Hw1 & Hw2). cbn [fst snd]. split; [unfold params; cbn; rewrite P2, Ew; reflexivity|]. eexists. split; [reflexivity|].
      split; [split; [exact Ho|unfold wsum; rewrite map_length; exact Hw1]|]. split; [|reflexivity].
      apply Forall_map. eapply Forall_impl; [|exact Hw2]. intros row Hr. cbn beta in Hr. apply (row_bad nan HB); [lia|right; exact Hin].
  Qed.

  (** update with a fitting target, after such a predict: TypeError, and all output weights are nan; the hidden weights are as before *)
  Theorem C81_update : forall sizes n_input outputs n x d, unknown_net sizes n_input outputs n -> length x = n_input -> vlen d outputs ->
    let n' := fst (net_update_u d (fst (net_predict_u nan x n))) in
    snd (net_update_u d (fst (net_predict_u nan x n))) = Err TypeError /\ Forall (all_bad nan) (out_weights n') /\
    map layer_par (m_layers n') = map layer_par (m_layers n).
  Proof.
    intros sizes k o n x d Hu Hx Hd. destruct (C81_predict sizes k o n x Hu Hx) as (Hpar & y & _ & Hy & Hyb & Hmy).
    assert (Hu' : unknown_net sizes k o (fst (net_predict_u nan x n))) by (apply un_predict, Hu).
    destruct (unknown_ok _ _ _ _ Hu') as (Hok & _). set (m := fst (net_predict_u nan x n)) in *. clearbody m.
    assert (Hlay : map layer_par (m_layers m) = map layer_par (m_layers n)) by (unfold params in Hpar; congruence).
    destruct Hok as (H1 & H2 & H3 & H4 & H5 & H6). cbv zeta. unfold net_update_u. rewrite Hmy.
    destruct (val_sub_minus o d y Hd Hy) as (-> & He).
    pose proof (starts_one_len _ _ H5) as Hxl.
    destruct d as [a|u], y as [b|v]; cbn [vlen] in Hd, Hy; try (destruct Hy; congruence); try (destruct Hd; congruence).
    - destruct (m_w m) as [w|W]; [|destruct H6; congruence]. destruct H6 as (_ & H6).
      cbn [minus out_step rbind]. unfold iadd1. rewrite map_length. replace (length (m_x m) =? length w) with true by (symmetry; apply Nat.eqb_eq; lia). cbn [rmap].
      rewrite (update_layers_u_eq _ _ _ (layers_ne _ _ _ H4 H3)). cbn [fst snd rmap m_w out_weights]. split; [reflexivity|]. split; [|exact Hlay].
      constructor; [|constructor]. cbn [entries] in Hyb. pose proof (Forall_inv Hyb) as ->. rewrite (po_sub_r _ HB), (po_mul_r _ HB).
      clear - HB. revert w. induction (m_x m) as [|c t IH]; intros [|w0 w]; cbn [map map2]; constructor; [|apply IH].
      rewrite (po_mul_l _ HB). apply (po_add_r _ HB).
    - destruct Hd as (Ho & Hd), Hy as (_ & Hy). destruct (m_w m) as [w|W]; [destruct H6; congruence|]. destruct H6 as (_ & H6 & _).
      cbn [minus out_step val_list]. rewrite iadd2_same by (rewrite outer_len, map2_len; lia). cbn [rmap].
      rewrite (update_layers_u_eq _ _ _ (layers_ne _ _ _ H4 H3)). cbn [fst snd rmap m_w out_weights]. split; [reflexivity|]. split; [|exact Hlay].
      apply (add_rows_r nan HB), (scale_outer nan HB). cbn [entries] in Hyb. clear - Hyb HB. revert v Hyb.
      induction u as [|a u IH]; intros [|b v] H; cbn [map2]; constructor; [rewrite (Forall_inv H); apply (po_sub_r _ HB)|apply IH; exact (Forall_inv_tail H)].
  Qed.

  (** train with fitting data: TypeError at the first sample *)
  Theorem C81_train : forall sizes n_input outputs n x d ds epochs shuffle,
    unknown_net sizes n_input outputs n -> rows_of n_input x -> x <> [] -> fits outputs (length x) d ds -> 0 < epochs ->
    (forall idx, shuffle = Some idx -> Permutation idx (seq 0 (length x))) ->
    exists n', net_train_u nan x d epochs shuffle n = (n', Err TypeError) /\ Forall (all_bad nan) (out_weights n') /\
      map layer_par (m_layers n') = map layer_par (m_layers n).
  Proof.
    intros sizes k o n x d ds ep sh Hu Hx Hne Hf Hep Hs. destruct (unknown_ok _ _ _ _ Hu) as (Hok & _).
    destruct (check_ok sizes k o n x d ds Hok Hx Hne Hf) as (C1 & C2 & C3). unfold net_train_u. rewrite C1.
    set (data := match sh with None => combine x ds | Some idx => combine (take idx x []) (take idx ds (VNum n0)) end).
    assert (HN : 0 < length x) by (destruct x; [contradiction|cbn; lia]).
    unfold rows_of in Hx. rewrite Forall_forall in Hx, C3.
    assert (Hd : exists x0 d0 rest, data = (x0, d0) :: rest /\ length x0 = k /\ vlen d0 o).
    { unfold data. destruct sh as [idx|].
      - pose proof (Hs idx eq_refl) as HP. pose proof (Permutation_length HP) as Hl. rewrite seq_length in Hl.
        destruct idx as [|i idx]; [cbn in Hl; lia|]. assert (Hi : In i (seq 0 (length x))) by (eapply Permutation_in; [exact HP|left; reflexivity]).
        apply in_seq in Hi. do 3 eexists. split; [reflexivity|]. split; [apply Hx, nth_In; lia|apply C3, nth_In; lia].
      - destruct x as [|x0 x]; [contradiction|]. destruct ds as [|d0 ds]; [discriminate|]. do 3 eexists. split; [reflexivity|].
        split; [apply Hx; left; reflexivity|apply C3; left; reflexivity]. }
    destruct Hd as (x0 & d0 & rest & -> & Hx0 & Hd0). destruct ep as [|ep]; [lia|]. cbn [epochs_loop_u epoch_loop_u]. unfold bind.
    destruct (C81_predict sizes k o n x0 Hu Hx0) as (_ & y & Ey & _).
    destruct (C81_update sizes k o n x0 d0 Hu Hx0 Hd0) as (U1 & U2 & U3).
    destruct (net_predict_u nan x0 n) as [m r]. cbn [fst snd] in *. subst r.
    destruct (net_update_u d0 m) as [m' r]. cbn [fst snd] in *. subst r. exists m'. auto.
  Qed.
End C81.
