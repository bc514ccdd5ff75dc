(** Properties C44, C47, C48: the multi-layer perceptron as a state machine, for any arithmetic. *)
From Coq Require Import QArith Permutation.
From Verif Require Import Py Num Numpy Spec Mlp.
Open Scope nat_scope.

Section MLP.
  Context {T : Type} {NT : Num T}.
  Notation vec := (list T).
  Notation mat := (list (list T)).
  Notation net := (net T).
  Notation layer := (layer T).
  Notation val := (val T).

  (** ** Specification *)
  (** everything that learning can change or that determines outputs; what predict leaves behind
      (stale inputs and outputs) is not part of it *)
  Definition layer_par (l : layer) : T * nat * mat * actf := (l_mu l, l_n l, l_w l, l_f l).
  Definition params (n : net) : T * nat * nat * wts T * list (T * nat * mat * actf) :=
    (m_mu n, m_n n, m_outputs n, m_w n, map layer_par (m_layers n)).

  (** the textbook forward pass: every layer sees a leading constant 1 *)
  Fixpoint hidden (ls : list (T * nat * mat * actf)) (x : vec) : vec :=
    match ls with
    | [] => x
    | (_, _, W, f) :: ls' => hidden ls' (map (fun row => act f (nsum (map2 nmul row (n1 :: x)))) W)
    end.
  Definition forward (n : net) (x : vec) : val :=
    let h := hidden (map layer_par (m_layers n)) x in
    match m_w n with
    | W1 w => VNum (ndot w (n1 :: h))
    | W2 W => VArr (map (fun row => nsum (map2 nmul row (n1 :: h))) W)
    end.

  (** a matrix of r rows and c columns *)
  Definition msh (r c : nat) (A : mat) : Prop := length A = r /\ Forall (fun row => length row = c) A.

  (** the weights have the shapes that `layers`, `n_input` and `outputs` ask for *)
  Fixpoint hidden_shapes (n_input : nat) (sizes : list nat) (ls : list layer) : Prop :=
    match sizes, ls with
    | [], [] => True
    | s :: sizes', l :: ls' => l_n l = n_input /\ msh s (n_input + 1) (l_w l) /\ hidden_shapes s sizes' ls'
    | _, _ => False
    end.
  Definition weight_shapes (sizes : list nat) (n_input outputs : nat) (n : net) : Prop :=
    m_n n = n_input /\ m_outputs n = outputs /\ hidden_shapes n_input sizes (m_layers n) /\
    match m_w n with
    | W1 w => outputs = 1 /\ length w = last sizes 0 + 1
    | W2 W => outputs <> 1 /\ msh outputs (last sizes 0 + 1) W
    end.

  (** histories of calls, with any arguments; a call that raises leaves its partial effects *)
  Inductive mop : Type :=
  | MPredict (x : vec)
  | MUpdate (d : val)
  | MTrain (x : mat) (d : darg T) (epochs : nat) (shuffle : option (list nat))
  | MRun (x : mat)
  | MTest (x : mat) (d : darg T).
  Definition mexec (p : mop) (n : net) : net :=
    match p with
    | MPredict x => fst (net_predict x n)
    | MUpdate d => fst (net_update d n)
    | MTrain x d k s => fst (net_train x d k s n)
    | MRun x => fst (net_run x n)
    | MTest x d => fst (net_test x d n)
    end.
  Definition rngs_ok (rng1 : T -> nat -> vec) (rng : nat -> T -> nat -> nat -> mat) : Prop :=
    (forall s k, length (rng1 s k) = k) /\ (forall i s r c, msh r c (rng i s r c)).
  Inductive net_reach (sizes : list nat) (n_input outputs : nat) : net -> Prop :=
  | reach_net rng1 rng f mu n : rngs_ok rng1 rng ->
      new_net rng1 rng sizes n_input outputs f mu = Ok n -> net_reach sizes n_input outputs n
  | reach_mop n p : net_reach sizes n_input outputs n -> net_reach sizes n_input outputs (mexec p n).

  (** ** The invariant *)
  Definition starts_one (k : nat) (x : vec) : Prop := exists t, x = n1 :: t /\ length t = k.
  Fixpoint ls_ok (n_input : nat) (sizes : list nat) (ls : list layer) : Prop :=
    match sizes, ls with
    | [], [] => True
    | s :: sizes', l :: ls' =>
        l_n l = n_input /\ msh s (n_input + 1) (l_w l) /\ starts_one n_input (l_x l) /\ ls_ok s sizes' ls'
    | _, _ => False
    end.
  Definition net_ok (sizes : list nat) (n_input outputs : nat) (n : net) : Prop :=
    m_n n = n_input /\ m_outputs n = outputs /\ sizes <> [] /\ ls_ok n_input sizes (m_layers n) /\
    starts_one (last sizes 0) (m_x n) /\
    match m_w n with
    | W1 w => outputs = 1 /\ length w = last sizes 0 + 1
    | W2 W => outputs <> 1 /\ msh outputs (last sizes 0 + 1) W
    end.

  Lemma assign_tail_ok a k x xs : starts_one k a -> assign_tail a k x = Ok xs -> starts_one k xs.
  Proof.
    intros (t & -> & Ht) H. unfold assign_tail in H. destruct (Nat.eqb_spec (length x) k) as [E|E].
    - injection H as <-. exists x; auto.
    - destruct x as [|b [|c x]]; try discriminate. injection H as <-. exists (repeat b k). split; auto. apply repeat_length.
  Qed.
  Lemma assign_tail_eq a k x : starts_one k a -> length x = k -> assign_tail a k x = Ok (n1 :: x).
  Proof. intros (t & -> & Ht) H. unfold assign_tail. rewrite H, Nat.eqb_refl. reflexivity. Qed.

  Lemma layer_predict_par x l : layer_par (fst (layer_predict x l)) = layer_par l.
  Proof. unfold layer_predict. destruct (assign_tail _ _ _); reflexivity. Qed.
  Lemma predict_layers_par ls : forall x, map layer_par (fst (predict_layers ls x)) = map layer_par ls.
  Proof.
    induction ls as [|l ls IH]; intros x; auto. cbn [predict_layers].
    pose proof (layer_predict_par x l) as Hp. destruct (layer_predict x l) as [l' [y|e]]; simpl in Hp.
    - specialize (IH y). destruct (predict_layers ls y). simpl in *. rewrite Hp, IH. reflexivity.
    - simpl. rewrite Hp. reflexivity.
  Qed.
  Lemma net_predict_params x n : params (fst (net_predict x n)) = params n.
  Proof.
    unfold net_predict. pose proof (predict_layers_par (m_layers n) x) as Hp.
    destruct (predict_layers (m_layers n) x) as [ls [h|e]]; simpl in Hp; [|unfold params; simpl; rewrite Hp; reflexivity].
    destruct (assign_tail _ _ _); [|unfold params; simpl; rewrite Hp; reflexivity].
    match goal with |- context [match ?r with Ok _ => _ | Err _ => _ end] => destruct r end; unfold params; simpl; rewrite Hp; reflexivity.
  Qed.
  Lemma net_run_params x : forall n, params (fst (net_run x n)) = params n.
  Proof.
    induction x as [|r x IH]; intros n; auto. cbn [net_run]. unfold bind.
    pose proof (net_predict_params r n) as Hp. destruct (net_predict r n) as [n' [y|e]]; auto. simpl in Hp.
    specialize (IH n'). destruct (net_run x n') as [n'' [ys|e]]; simpl in *; congruence.
  Qed.
  Lemma net_test_params x d n : params (fst (net_test x d n)) = params n.
  Proof.
    unfold net_test. destruct (check_data x d n); auto. unfold bind, lift.
    pose proof (net_run_params x n) as Hp. destruct (net_run x n) as [n' [ys|e]]; auto.
  Qed.

  (** ls_ok and net_ok are preserved by every call *)
  Lemma layer_predict_inv s k x l : l_n l = k -> msh s (k + 1) (l_w l) -> starts_one k (l_x l) ->
    let l' := fst (layer_predict x l) in l_n l' = k /\ msh s (k + 1) (l_w l') /\ starts_one k (l_x l').
  Proof.
    intros Hn Hw Hx. unfold layer_predict. destruct (assign_tail _ _ _) as [xs|] eqn:E; simpl; auto.
    repeat (split; auto). rewrite Hn in E. eapply assign_tail_ok; eauto.
  Qed.
  Lemma predict_layers_inv sizes : forall ls k x, ls_ok k sizes ls -> ls_ok k sizes (fst (predict_layers ls x)).
  Proof.
    induction sizes as [|s sizes IH]; intros [|l ls] k x H; simpl in H; auto; try contradiction.
    destruct H as (H1 & H2 & H3 & H4). cbn [predict_layers].
    destruct (layer_predict_inv s k x l H1 H2 H3) as (I1 & I2 & I3).
    destruct (layer_predict x l) as [l' [y|e]]; simpl in *; auto.
    specialize (IH ls s y H4). destruct (predict_layers ls y); simpl in *; auto.
  Qed.
  Lemma net_predict_inv sizes k o x n : net_ok sizes k o n -> net_ok sizes k o (fst (net_predict x n)).
  Proof.
    intros (H1 & H2 & H3 & H4 & H5 & H6). unfold net_predict.
    pose proof (predict_layers_inv sizes (m_layers n) k x H4) as Hp.
    destruct (predict_layers (m_layers n) x) as [ls [h|e]]; simpl in Hp; [|repeat (split; auto)].
    destruct (assign_tail _ _ _) as [xs|] eqn:E; [|repeat (split; auto)].
    assert (Hxs : starts_one (last sizes 0) xs).
    { eapply assign_tail_ok; [exact H5|]. destruct H5 as (t & Et & Hl). rewrite Et in E. simpl in E. rewrite Nat.sub_0_r, Hl, <- Et in E. exact E. }
    match goal with |- context [match ?r with Ok _ => _ | Err _ => _ end] => destruct r end; repeat (split; auto).
  Qed.

  Lemma map2_len {A B C} (g : A -> B -> C) u v : length (map2 g u v) = Nat.min (length u) (length v).
  Proof. revert v; induction u as [|a u IH]; intros [|b v]; simpl; auto. Qed.
  Lemma iadd2_inv r c W D W' : msh r c W -> Forall (fun row => length row = c) D -> iadd2 W D = Ok W' -> msh r c W'.
  Proof.
    intros (HW1 & HW2) HD H. unfold iadd2 in H. destruct (Nat.eqb_spec (length D) (length W)) as [E|E].
    - injection H as <-. split; [rewrite map2_len; lia|]. clear E HW1. revert D HD. induction HW2 as [|a W Ha HW IH]; intros [|b D] HD; simpl; auto.
      constructor; [rewrite map2_len; inversion HD; lia|apply IH; inversion HD; auto].
    - destruct D as [|b [|? ?]]; try discriminate. injection H as <-. inversion HD; subst.
      split; [rewrite map_length; auto|]. rewrite Forall_map. eapply Forall_impl; [|exact HW2]. intros a Ha; cbv beta in *. rewrite map2_len. lia.
  Qed.
  Lemma iadd1_inv w D w' : iadd1 w D = Ok w' -> length w' = length w.
  Proof.
    unfold iadd1. destruct (Nat.eqb_spec (length D) (length w)).
    - intros H; injection H as <-. rewrite map2_len; lia.
    - destruct D as [|b [|? ?]]; try discriminate. intros H; injection H as <-. apply map_length.
  Qed.
  Lemma outer_rows mu (u x : vec) c : length x = c -> Forall (fun row => length row = c) (mscale mu (outer u x)).
  Proof.
    intros H. unfold mscale, outer, vscale. rewrite map_map, Forall_map. apply Forall_forall. intros a _. rewrite !map_length; auto.
  Qed.
  Lemma starts_one_len k x : starts_one k x -> length x = k + 1.
  Proof. intros (t & -> & H). simpl. lia. Qed.

  Lemma layer_update_inv s k w e l : l_n l = k -> msh s (k + 1) (l_w l) -> starts_one k (l_x l) ->
    let l' := fst (layer_update w e l) in l_n l' = k /\ msh s (k + 1) (l_w l') /\ starts_one k (l_x l').
  Proof.
    intros Hn Hw Hx. unfold layer_update. destruct (layer_error w e l) as [el|]; simpl; auto.
    destruct (iadd2 _ _) as [w'|] eqn:E; simpl; auto. split; auto. split; auto.
    eapply iadd2_inv; [exact Hw| |exact E]. apply outer_rows, starts_one_len; auto.
  Qed.
  Lemma update_layers_inv sizes : forall ls k w e, ls_ok k sizes ls -> ls_ok k sizes (fst (update_layers ls w e)).
  Proof.
    induction sizes as [|s sizes IH]; intros [|l ls] k w e H; simpl in H; auto; try contradiction.
    destruct H as (H1 & H2 & H3 & H4). cbn [update_layers]. specialize (IH ls s w e H4).
    destruct (update_layers ls w e) as [ls'' [[w' e']|x]]; simpl in *; auto.
    destruct (layer_update_inv s k w' e' l H1 H2 H3) as (I1 & I2 & I3).
    destruct (layer_update w' e' l); simpl in *; auto.
  Qed.
  Lemma net_update_inv sizes k o d n : net_ok sizes k o n -> net_ok sizes k o (fst (net_update d n)).
  Proof.
    intros (H1 & H2 & H3 & H4 & H5 & H6). unfold net_update.
    destruct (val_sub d (m_y n)) as [e|]; [|repeat (split; auto)].
    destruct (out_step _ _ _ _) as [[w' wold]|] eqn:Eo; [|repeat (split; auto)].
    pose proof (update_layers_inv sizes (m_layers n) k wold e H4) as Hl.
    destruct (update_layers (m_layers n) wold e) as [ls r]. simpl in *. repeat (split; auto). simpl.
    pose proof (starts_one_len _ _ H5) as Hx.
    unfold out_step in Eo. destruct (m_w n) as [w|W].
    - destruct H6 as (H6 & H7). destruct (match e with VNum a => _ | VArr v => _ end) as [dw|]; [|discriminate].
      cbn [rbind] in Eo. destruct (iadd1 w dw) as [w1|] eqn:E1; [|discriminate]. injection Eo as <- <-.
      split; auto. rewrite (iadd1_inv _ _ _ E1). auto.
    - destruct H6 as (H6 & H7). destruct (iadd2 W _) as [W'|] eqn:E2; [|discriminate]. injection Eo as <- <-.
      split; auto. eapply iadd2_inv; [exact H7| |exact E2]. apply outer_rows; auto.
  Qed.
  Lemma epoch_loop_inv sizes k o data : forall n, net_ok sizes k o n -> net_ok sizes k o (fst (epoch_loop data n)).
  Proof.
    induction data as [|[x d] data IH]; intros n H; auto. cbn [epoch_loop]. unfold bind.
    pose proof (net_predict_inv _ _ _ x n H) as Hp. destruct (net_predict x n) as [n1' [y|]]; auto. simpl in Hp.
    pose proof (net_update_inv _ _ _ d n1' Hp) as Hu. destruct (net_update d n1') as [n2' [e|]]; auto. simpl in Hu.
    specialize (IH n2' Hu). destruct (epoch_loop data n2') as [n3 [es|]]; auto.
  Qed.
  Lemma epochs_loop_inv sizes k o data : forall ep i e ms n, net_ok sizes k o n -> net_ok sizes k o (fst (epochs_loop ep i data e ms n)).
  Proof.
    induction ep as [|ep IH]; intros i e ms n H; auto. cbn [epochs_loop]. unfold bind.
    pose proof (epoch_loop_inv _ _ _ data n H) as Hp. destruct (epoch_loop data n) as [n' [es|]]; auto.
  Qed.
  Lemma net_run_inv sizes k o x : forall n, net_ok sizes k o n -> net_ok sizes k o (fst (net_run x n)).
  Proof.
    induction x as [|r x IH]; intros n H; auto. cbn [net_run]. unfold bind.
    pose proof (net_predict_inv _ _ _ r n H) as Hp. destruct (net_predict r n) as [n' [y|]]; auto. simpl in Hp.
    specialize (IH n' Hp). destruct (net_run x n') as [n'' [ys|]]; auto.
  Qed.
  Lemma mexec_inv sizes k o p n : net_ok sizes k o n -> net_ok sizes k o (mexec p n).
  Proof.
    intros H. destruct p as [x|d|x d ep sh|x|x d]; cbn [mexec].
    - apply net_predict_inv; auto.
    - apply net_update_inv; auto.
    - unfold net_train. destruct (check_data x d n); auto. apply epochs_loop_inv; auto.
    - apply net_run_inv; auto.
    - unfold net_test. destruct (check_data x d n); auto. unfold bind, lift.
      pose proof (net_run_inv _ _ _ x n H) as Hp. destruct (net_run x n) as [n' [ys|]]; auto.
  Qed.
  Lemma ones_start k : starts_one k (ones (k + 1)).
  Proof. exists (repeat n1 k). split; [unfold ones; rewrite Nat.add_1_r; reflexivity|apply repeat_length]. Qed.
  Lemma new_layers_inv rng f mu : (forall i s r c, msh r c (rng i s r c)) -> forall sizes i k ls,
    new_layers rng i sizes k f mu = Ok ls -> ls_ok k sizes ls.
  Proof.
    intros Hr. induction sizes as [|s sizes IH]; intros i k ls H; cbn [new_layers] in H.
    - injection H as <-. exact I.
    - unfold new_layer, inv_sqrt in H. destruct (k =? 0); [discriminate|]. cbn [rbind] in H.
      destruct (new_layers rng (S i) sizes s f mu) as [ls'|] eqn:E; [|discriminate]. injection H as <-.
      simpl. split; auto. split; [apply Hr|]. split; [apply ones_start|eauto].
  Qed.
  Lemma rev_last {A} (l : list A) a r d : rev l = a :: r -> last l d = a.
  Proof.
    intros H. rewrite <- (rev_involutive l), H. simpl. apply last_last.
  Qed.
  Lemma net_reach_ok sizes k o n : net_reach sizes k o n -> net_ok sizes k o n.
  Proof.
    induction 1 as [rng1 rng f mu n (Hr1 & Hr) E|n p Hn IH]; [|apply mexec_inv; auto].
    unfold new_net in E. destruct (rev sizes) as [|la rest] eqn:Er; [discriminate|].
    destruct (inv_sqrt la) as [sigma|]; [|discriminate]. cbn [rbind] in E.
    destruct (match mu with MuAuto => _ | MuNum a => _ | MuBad => _ end) as [m|]; [|discriminate]. cbn [rbind] in E.
    destruct (new_layers rng 1 sizes k f mu) as [ls|] eqn:El; [|discriminate]. injection E as <-.
    apply new_layers_inv in El; auto. pose proof (rev_last sizes la rest 0 Er) as Hla.
    split; auto. split; auto. split; [intros ->; discriminate|]. split; auto.
    split; [simpl; rewrite Hla; apply ones_start|]. simpl. rewrite Hla.
    destruct (Nat.eqb_spec o 1); split; auto.
  Qed.
  Lemma ls_ok_shapes sizes : forall k ls, ls_ok k sizes ls -> hidden_shapes k sizes ls.
  Proof.
    induction sizes as [|s sizes IH]; intros k [|l ls] H; simpl in *; auto.
    destruct H as (H1 & H2 & H3 & H4). auto.
  Qed.

  (** *** C48: the shapes of all weights are those of the constructor, after any history of calls *)
  Theorem C48_shapes_preserved : forall sizes n_input outputs n,
    net_reach sizes n_input outputs n -> weight_shapes sizes n_input outputs n.
  Proof.
    intros sizes k o n H. destruct (net_reach_ok _ _ _ _ H) as (H1 & H2 & H3 & H4 & H5 & H6).
    split; auto. split; auto. split; [apply ls_ok_shapes; auto|auto].
  Qed.

  Lemma last_indep (l : list nat) : forall s a b, last (s :: l) a = last (s :: l) b.
  Proof. induction l as [|c l IH]; intros s a b; auto. exact (IH c a b). Qed.

  (** ** predict *)
  Lemma predict_layers_ok sizes : forall ls k x, ls_ok k sizes ls -> length x = k ->
    snd (predict_layers ls x) = Ok (hidden (map layer_par ls) x) /\
    length (hidden (map layer_par ls) x) = last sizes k /\
    Forall2 (fun s l => length (l_y l) = s) sizes (fst (predict_layers ls x)).
  Proof.
    induction sizes as [|s sizes IH]; intros [|l ls] k x H Hx; simpl in H; try contradiction;
      [simpl; repeat split; auto; constructor|].
    destruct H as (H1 & (H2 & H2') & H3 & H4). cbn [predict_layers map hidden layer_par].
    unfold layer_predict. rewrite H1, (assign_tail_eq _ _ _ H3 Hx). unfold wsum. rewrite map_map.
    set (y := map _ (l_w l)). assert (Hy : length y = s) by (unfold y; rewrite map_length; auto).
    destruct (IH ls s y H4 Hy) as (I1 & I2 & I3). destruct (predict_layers ls y) as [ls'' r] eqn:E. simpl in *.
    change (nsum (map2 nmul ?a ?b)) with (nsum (map2 nmul a b)).
    unfold layer_par at 1; cbn [l_mu]. split; [exact I1|]. split.
    - rewrite I2. destruct sizes; auto. apply last_indep.
    - constructor; auto.
  Qed.

  Definition vlen (v : val) (o : nat) : Prop := match v with VNum _ => o = 1 | VArr v => o <> 1 /\ length v = o end.
  (** the last inputs and outputs of the layers have the right lengths: true after a predict *)
  Definition net_ready (sizes : list nat) (o : nat) (n : net) : Prop :=
    Forall2 (fun s l => length (l_y l) = s) sizes (m_layers n) /\ vlen (m_y n) o.

  Lemma net_predict_ok sizes k o x n : net_ok sizes k o n -> length x = k ->
    snd (net_predict x n) = Ok (forward n x) /\ net_ready sizes o (fst (net_predict x n)) /\ vlen (forward n x) o /\
    m_y (fst (net_predict x n)) = forward n x.
  Proof.
    intros (H1 & H2 & H3 & H4 & H5 & H6) Hx. unfold net_predict, forward.
    destruct (predict_layers_ok sizes (m_layers n) k x H4 Hx) as (P1 & P2 & P3).
    destruct (predict_layers (m_layers n) x) as [ls r]. simpl in P1, P3. subst r.
    set (h := hidden _ x) in *. assert (Hh : length h = last sizes 0).
    { rewrite P2. destruct sizes as [|s0 sizes]; [contradiction|]. apply last_indep. }
    pose proof (starts_one_len _ _ H5) as Hl. replace (length (m_x n) - 1) with (last sizes 0) by lia.
    rewrite (assign_tail_eq _ _ _ H5 Hh). destruct (m_w n) as [w|W].
    - destruct H6 as (H6 & H7). unfold vdot. replace (length w =? length (n1 :: h)) with true by (symmetry; apply Nat.eqb_eq; simpl; lia).
      cbn [rmap fst snd]. repeat split; auto.
    - destruct H6 as (H6 & H7 & _). cbn [fst snd]. unfold wsum. repeat split; auto; simpl; rewrite map_length; auto.
  Qed.

  (** *** C44 *)
  (** no inference call ever changes a weight, a learning rate or an activation, not even when it raises *)
  Theorem C44_inference_keeps_parameters : forall n p,
    match p with MPredict _ | MRun _ | MTest _ _ => True | _ => False end -> params (mexec p n) = params n.
  Proof.
    intros n p Hp. destruct p as [x|d|x d ep sh|x|x d]; try contradiction; cbn [mexec].
    - apply net_predict_params.
    - apply net_run_params.
    - apply net_test_params.
  Qed.

  (** predict is the textbook forward pass, whatever was done with the network before *)
  Theorem C44_predict : forall sizes n_input outputs n x, net_reach sizes n_input outputs n -> length x = n_input ->
    snd (net_predict x n) = Ok (forward n x).
  Proof. intros sizes k o n x H Hx. apply (net_predict_ok sizes k o x n (net_reach_ok _ _ _ _ H) Hx). Qed.

  Lemma forward_params n n' x : params n = params n' -> forward n x = forward n' x.
  Proof.
    intros H. unfold params in H. injection H as H1 H2 H3 H4 H5. unfold forward. rewrite H4, H5. reflexivity.
  Qed.
  Lemma net_run_ok sizes k o x : forall n, net_ok sizes k o n -> rows_of k x ->
    snd (net_run x n) = Ok (map (forward n) x).
  Proof.
    induction x as [|r x IH]; intros n H Hx; auto. cbn [net_run map]. unfold bind. inversion Hx; subst.
    destruct (net_predict_ok sizes _ o r n H eq_refl) as (P1 & _).
    pose proof (net_predict_inv _ _ _ r n H) as Hi. pose proof (net_predict_params r n) as Hp.
    destruct (net_predict r n) as [n' res]. simpl in *. subst res.
    specialize (IH n' Hi ltac:(assumption)). destruct (net_run x n') as [n'' res]. simpl in *. subst res. simpl.
    f_equal. f_equal. apply map_ext. intros a. apply forward_params. auto.
  Qed.
  (** run is predict on every row, independent of the other rows and of earlier calls *)
  Theorem C44_run : forall sizes n_input outputs n x, net_reach sizes n_input outputs n -> rows_of n_input x ->
    snd (net_run x n) = Ok (map (forward n) x).
  Proof. intros sizes k o n x H Hx. apply (net_run_ok sizes k o x n (net_reach_ok _ _ _ _ H) Hx). Qed.

  Lemma check_ok sizes k o n x d ds : net_ok sizes k o n -> rows_of k x -> x <> [] ->
    match d with D1 v => o = 1 /\ ds = map VNum v /\ length v = length x
               | D2 c rows => o <> 1 /\ c = o /\ ds = map VArr rows /\ length rows = length x /\ rows_of o rows
               | DList _ => False end ->
    check_data x d n = Ok ds /\ length ds = length x /\ Forall (fun v => vlen v o) ds.
  Proof.
    intros (H1 & H2 & H3 & H4 & H5 & H6) Hx Hn Hd. unfold check_data.
    destruct d as [|v|c rows]; [contradiction| |].
    - destruct Hd as (Ho & -> & Hl). simpl (dlen _). rewrite Hl, Nat.eqb_refl. cbn [negb].
      destruct x as [|r0 x]; [contradiction|]. assert (Hr0 : length r0 = k) by (inversion Hx; auto). rewrite Hr0, H1, Nat.eqb_refl. cbn [negb].
      destruct (m_w n); [|destruct H6; contradiction]. split; auto. rewrite map_length. split; auto.
      rewrite Forall_map. apply Forall_forall. intros; simpl; auto.
    - destruct Hd as (Ho & -> & -> & Hl & Hr). simpl (dlen _). rewrite Hl, Nat.eqb_refl. cbn [negb].
      destruct x as [|r0 x]; [contradiction|]. assert (Hr0 : length r0 = k) by (inversion Hx; auto). rewrite Hr0, H1, Nat.eqb_refl. cbn [negb].
      destruct (m_w n); [destruct H6; congruence|]. rewrite H2, Nat.eqb_refl. split; auto. rewrite map_length. split; auto.
      rewrite Forall_map. eapply Forall_impl; [|exact Hr]. intros a Ha; simpl; auto.
  Qed.

  (** the targets that fit: a 1-d array for one output, a 2-d array with `outputs` columns otherwise *)
  Definition fits (o : nat) (N : nat) (d : darg T) (ds : list val) : Prop :=
    match d with
    | D1 v => o = 1 /\ ds = map VNum v /\ length v = N
    | D2 c rows => o <> 1 /\ c = o /\ ds = map VArr rows /\ length rows = N /\ rows_of o rows
    | DList _ => False
    end.
  (** elementwise difference of two values of the same kind *)
  Definition minus (a b : val) : val :=
    match a, b with
    | VNum a, VNum b => VNum (nsub a b)
    | VArr u, VArr v => VArr (map2 nsub u v)
    | _, _ => a
    end.
  Lemma val_sub_minus o a b : vlen a o -> vlen b o -> val_sub a b = Ok (minus a b) /\ vlen (minus a b) o.
  Proof.
    destruct a as [a|u], b as [b|v]; simpl; intros Ha Hb.
    - auto.
    - destruct Hb; congruence.
    - destruct Ha; congruence.
    - destruct Ha as (H1 & H2), Hb as (H3 & H4). unfold bc_sub, bc. rewrite H2, H4, Nat.eqb_refl. simpl.
      repeat split; auto. rewrite map2_len; lia.
  Qed.

  (** test gives the targets minus the outputs of run *)
  Theorem C44_test : forall sizes n_input outputs n x d ds, net_reach sizes n_input outputs n -> rows_of n_input x -> x <> [] ->
    fits outputs (length x) d ds -> snd (net_test x d n) = Ok (map2 minus ds (map (forward n) x)).
  Proof.
    intros sizes k o n x d ds H Hx Hne Hf. apply net_reach_ok in H.
    destruct (check_ok sizes k o n x d ds H Hx Hne Hf) as (H1 & H2 & H3). unfold net_test. rewrite H1.
    unfold bind, lift. pose proof (net_run_ok sizes k o x n H Hx) as Hr. destruct (net_run x n) as [n' res]. simpl in Hr. subst res. simpl.
    assert (Hy : Forall (fun v => vlen v o) (map (forward n) x)).
    { rewrite Forall_map. eapply Forall_impl; [|exact Hx]. intros r Hr; simpl in Hr. apply (net_predict_ok sizes k o r n H Hr). }
    clear - H3 Hy. revert H3 Hy. generalize (map (forward n) x). induction ds as [|a ds IH]; intros [|b ys] Ha Hy; simpl; auto.
    inversion Ha; inversion Hy; subst. destruct (val_sub_minus o a b) as (-> & _); auto. cbn [rbind].
    rewrite IH; auto.
  Qed.

  (** ** update *)
  Lemma bc_same {A B C} (g : A -> B -> C) u v : length u = length v -> bc g u v = Ok (map2 g u v).
  Proof. intros H. unfold bc. rewrite H, Nat.eqb_refl. reflexivity. Qed.
  Lemma outer_len mu (u x : vec) : length (mscale mu (outer u x)) = length u.
  Proof. unfold mscale, outer. rewrite !map_length. reflexivity. Qed.
  Lemma iadd2_same W D : length D = length W -> iadd2 W D = Ok (map2 (map2 nadd) W D).
  Proof. intros H. unfold iadd2. rewrite H, Nat.eqb_refl. reflexivity. Qed.

  (** what is handed from layer to layer: weights with one row per node of the next layer, one column
      per node of this layer, and an error per node of the next layer *)
  Definition handed (s : nat) (w : wts T) (e : val) : Prop :=
    match w with
    | W1 wv => length wv = s /\ match e with VNum _ => True | VArr _ => False end
    | W2 wm => exists q, msh q s wm /\ match e with VArr ev => length ev = q | VNum _ => False end
    end.
  Lemma layer_update_ok s k w e l : l_n l = k -> msh s (k + 1) (l_w l) -> starts_one k (l_x l) -> length (l_y l) = s ->
    handed s w e -> exists w' e', snd (layer_update w e l) = Ok (w', e') /\ handed k w' e' /\
      length (l_y (fst (layer_update w e l))) = s.
  Proof.
    intros Hn Hw Hx Hy Hh. pose proof (starts_one_len _ _ Hx) as Hxl.
    assert (He : exists el, layer_error w e l = Ok el /\ length el = s).
    { destruct w as [wv|wm]; simpl in *.
      - destruct Hh as (Hl & He). destruct e as [a|]; [|contradiction]. simpl. unfold bc_mul.
        rewrite bc_same by (rewrite !map_length; lia). eexists; split; [reflexivity|]. rewrite map2_len, !map_length. lia.
      - destruct Hh as (q & (Hq & _) & He). destruct e as [|ev]; [contradiction|]. unfold vmdot.
        replace (length ev =? length wm) with true by (symmetry; apply Nat.eqb_eq; lia). cbn [rbind]. unfold bc_mul.
        pose proof Hw as (Hw1 & _). rewrite bc_same by (rewrite !map_length, seq_length; lia).
        eexists; split; [reflexivity|]. rewrite map2_len, !map_length, seq_length. lia. }
    destruct He as (el & Eel & Hel). unfold layer_update. rewrite Eel.
    pose proof Hw as (Hw1 & Hw2). rewrite iadd2_same by (rewrite outer_len; lia).
    eexists _, _. split; [reflexivity|]. split; [|exact Hy]. exists s. split; [|exact Hel].
    assert (HW : msh s (k + 1) (map2 (map2 nadd) (l_w l) (mscale (l_mu l) (outer el (l_x l))))).
    { eapply iadd2_inv; [exact Hw|apply (outer_rows (l_mu l) el (l_x l) (k + 1)); auto|]. apply iadd2_same. rewrite outer_len; lia. }
    destruct HW as (HW1 & HW2). split; [rewrite map_length; auto|]. rewrite Forall_map. eapply Forall_impl; [|exact HW2].
    intros a Ha; simpl in Ha. destruct a; simpl in *; lia.
  Qed.
  Lemma update_layers_ok sizes : forall ls k w e, ls_ok k sizes ls -> Forall2 (fun s l => length (l_y l) = s) sizes ls ->
    handed (last sizes k) w e -> exists w' e', snd (update_layers ls w e) = Ok (w', e') /\ handed k w' e' /\
      Forall2 (fun s l => length (l_y l) = s) sizes (fst (update_layers ls w e)).
  Proof.
    induction sizes as [|s sizes IH]; intros [|l ls] k w e H Hy Hh; simpl in H; try contradiction.
    - exists w, e. auto.
    - destruct H as (H1 & H2 & H3 & H4). inversion Hy; subst. cbn [update_layers].
      destruct (IH ls (length (l_y l)) w e H4 ltac:(assumption)) as (w1 & e1 & I1 & I2 & I3).
      { replace (last sizes (length (l_y l))) with (last (length (l_y l) :: sizes) (l_n l)); auto.
        destruct sizes as [|a r]; auto. exact (last_indep r a _ _). }
      destruct (update_layers ls w e) as [ls' r]. simpl in I1, I3. subst r.
      destruct (layer_update_ok _ _ w1 e1 l eq_refl H2 H3 eq_refl I2) as (w2 & e2 & J1 & J2 & J3).
      destruct (layer_update w1 e1 l) as [l' r]. simpl in *. subst r. exists w2, e2. repeat split; auto.
  Qed.
  Lemma net_update_ok sizes k o d n : net_ok sizes k o n -> net_ready sizes o n -> vlen d o ->
    snd (net_update d n) = Ok (minus d (m_y n)) /\ net_ready sizes o (fst (net_update d n)).
  Proof.
    intros (H1 & H2 & H3 & H4 & H5 & H6) (R1 & R2) Hd. unfold net_update.
    destruct (val_sub_minus o d (m_y n) Hd R2) as (-> & He). set (e := minus d (m_y n)) in *.
    pose proof (starts_one_len _ _ H5) as Hx.
    assert (Hlast : last sizes k = last sizes 0).
    { destruct sizes as [|s0 sizes]; [contradiction|]. apply last_indep. }
    assert (Ho : exists w' wold, out_step (m_mu n) e (m_x n) (m_w n) = Ok (w', wold) /\ handed (last sizes k) wold e).
    { unfold out_step. destruct (m_w n) as [w|W].
      - destruct H6 as (H6 & H7). destruct e as [a|v]; [|destruct He; contradiction]. cbn [rbind].
        unfold iadd1. replace (length _ =? length w) with true by (symmetry; apply Nat.eqb_eq; rewrite map_length; lia).
        eexists _, _. split; [reflexivity|]. simpl. split; auto. rewrite Hlast. destruct w; simpl in *; lia.
      - destruct H6 as (H6 & H7 & H8). destruct e as [a|v]; [simpl in He; contradiction|]. destruct He as (_ & He). cbn [val_list].
        rewrite iadd2_same by (rewrite outer_len; lia). eexists _, _. split; [reflexivity|]. simpl. exists o. split; auto.
        split; [rewrite map_length; auto|]. rewrite Forall_map. eapply Forall_impl; [|exact H8].
        intros a Ha; simpl in Ha. rewrite Hlast. destruct a; simpl in *; lia. }
    destruct Ho as (w' & wold & -> & Hh).
    destruct (update_layers_ok sizes (m_layers n) k wold e H4 R1 Hh) as (w1 & e1 & U1 & _ & U3).
    destruct (update_layers (m_layers n) wold e) as [ls r]. simpl in *. subst r. simpl. repeat split; auto.
  Qed.

  (** *** C48 *)
  (** predict followed by update with fitting arguments always succeeds and gives the a-priori error *)
  Theorem C48_step_succeeds : forall sizes n_input outputs n x d, net_reach sizes n_input outputs n ->
    length x = n_input -> vlen d outputs ->
    let n' := fst (net_predict x n) in
    snd (net_predict x n) = Ok (forward n x) /\ snd (net_update d n') = Ok (minus d (forward n x)).
  Proof.
    intros sizes k o n x d H Hx Hd n'. apply net_reach_ok in H.
    destruct (net_predict_ok sizes k o x n H Hx) as (P1 & P2 & P3 & P4). split; auto.
    destruct (net_update_ok sizes k o d n' (net_predict_inv _ _ _ x n H) P2 Hd) as (U1 & _). rewrite U1. unfold n'. rewrite P4. reflexivity.
  Qed.

  (** wrong shapes are rejected with ValueError before anything is changed *)
  Theorem C48_rejects : forall n x d epochs shuffle,
    dlen d <> length x \/ (dlen d = length x /\ exists r0 x', x = r0 :: x' /\ length r0 <> m_n n) \/
    (dlen d = length x /\ (exists r0 x', x = r0 :: x' /\ length r0 = m_n n) /\
       match d, m_w n with D2 _ _, W1 _ => True | D2 c _, W2 _ => c <> m_outputs n | _, _ => False end) ->
    net_train x d epochs shuffle n = (n, Err ValueError) /\ net_test x d n = (n, Err ValueError).
  Proof.
    intros n x d ep sh H. assert (E : check_data x d n = Err ValueError).
    { unfold check_data. destruct H as [H|[(H & r0 & x' & -> & H')|(H & (r0 & x' & -> & H') & H'')]].
      - destruct (Nat.eqb_spec (dlen d) (length x)); [contradiction|reflexivity].
      - rewrite H, Nat.eqb_refl. cbn [negb]. destruct (Nat.eqb_spec (length r0) (m_n n)); [contradiction|reflexivity].
      - rewrite H, Nat.eqb_refl. cbn [negb]. rewrite H', Nat.eqb_refl. cbn [negb].
        destruct d as [|v|c rows]; try contradiction. destruct (m_w n); auto.
        destruct (Nat.eqb_spec c (m_outputs n)); [contradiction|reflexivity]. }
    unfold net_train, net_test. rewrite E. auto.
  Qed.
  (** three more rejections, with other exceptions than the announced ValueError: no data, targets given
      as a Python list, a 1-d array of targets for several outputs *)
  Theorem C48_other_exceptions : forall n x d epochs shuffle,
    (x = [] /\ dlen d = 0 ->
       net_train x d epochs shuffle n = (n, Err IndexError) /\ net_test x d n = (n, Err IndexError)) /\
    (forall v r0 x', d = DList v -> x = r0 :: x' -> length v = length x -> length r0 = m_n n ->
       net_train x d epochs shuffle n = (n, Err AttributeError) /\ net_test x d n = (n, Err AttributeError)) /\
    (forall v r0 x' W, d = D1 v -> x = r0 :: x' -> length v = length x -> length r0 = m_n n -> m_w n = W2 W ->
       net_train x d epochs shuffle n = (n, Err IndexError) /\ net_test x d n = (n, Err IndexError)).
  Proof.
    intros n x d ep sh. unfold net_train, net_test. split; [|split].
    - intros (-> & Hd). unfold check_data. rewrite Hd. simpl. auto.
    - intros v r0 x' -> -> Hl Hr. unfold check_data. cbn [dlen]. rewrite Hl, Nat.eqb_refl. cbn [negb]. rewrite Hr, Nat.eqb_refl. auto.
    - intros v r0 x' W -> -> Hl Hr HW. unfold check_data. cbn [dlen]. rewrite Hl, Nat.eqb_refl. cbn [negb]. rewrite Hr, Nat.eqb_refl. cbn [negb].
      rewrite HW. auto.
  Qed.

  (** *** C47 *)
  (** one learning step, and the network after a list of samples *)
  Definition learn (n : net) (s : vec * val) : net := fst (net_update (snd s) (fst (net_predict (fst s) n))).
  Definition learned (n : net) (l : list (vec * val)) : net := fold_left learn l n.
  Definition sample_ok (k o : nat) (s : vec * val) : Prop := length (fst s) = k /\ vlen (snd s) o.

  Lemma learned_ok sizes k o l : forall n, net_ok sizes k o n -> net_ok sizes k o (learned n l).
  Proof.
    induction l as [|s l IH]; intros n H; auto. apply IH. unfold learn. apply net_update_inv, net_predict_inv; auto.
  Qed.
  (** the a-priori errors of a list of samples *)
  Fixpoint errors (n : net) (l : list (vec * val)) : list val :=
    match l with [] => [] | s :: l' => minus (snd s) (forward n (fst s)) :: errors (learn n s) l' end.
  Lemma errors_app n l1 l2 : errors n (l1 ++ l2) = errors n l1 ++ errors (learned n l1) l2.
  Proof. revert n; induction l1 as [|s l IH]; intros n; simpl; auto. rewrite IH. reflexivity. Qed.
  Lemma errors_len l : forall n, length (errors n l) = length l.
  Proof. induction l as [|s l IH]; intros n; simpl; auto. Qed.
  Lemma errors_nth l : forall n i ds, i < length l ->
    nth i (errors n l) (VNum n0) = minus (snd (nth i l ds)) (forward (learned n (firstn i l)) (fst (nth i l ds))).
  Proof.
    induction l as [|s l IH]; intros n [|i] ds H; simpl in *; try lia; auto. apply IH; lia.
  Qed.

  Lemma epoch_loop_ok sizes k o l : forall n, net_ok sizes k o n -> Forall (sample_ok k o) l ->
    epoch_loop l n = (learned n l, Ok (errors n l)).
  Proof.
    induction l as [|[x d] l IH]; intros n H HF; auto. inversion HF as [|? ? (Hx & Hd) HF']; subst. cbn [epoch_loop fst snd] in *. unfold bind.
    destruct (net_predict_ok sizes _ o x n H eq_refl) as (P1 & P2 & P3 & P4).
    pose proof (net_predict_inv _ _ _ x n H) as Hi.
    destruct (net_update_ok sizes _ o d _ Hi P2 Hd) as (U1 & _). rewrite P4 in U1.
    pose proof (net_update_inv _ _ _ d _ Hi) as Hu.
    assert (El : learn n (x, d) = fst (net_update d (fst (net_predict x n)))) by reflexivity.
    unfold learned. cbn [errors fold_left fst snd]. fold (learned (learn n (x, d)) l). rewrite El. clear El.
    destruct (net_predict x n) as [n1' r1]. simpl in *. subst r1.
    destruct (net_update d n1') as [n2' r2]. simpl in *. subst r2.
    rewrite (IH n2' Hu HF'). reflexivity.
  Qed.

  (** the samples of `epochs` epochs, one after the other, always in the same order *)
  Definition stream (epochs : nat) (data : list (vec * val)) : list (vec * val) := concat (repeat data epochs).
  Lemma stream_S k data : stream (S k) data = data ++ stream k data.
  Proof. reflexivity. Qed.
  Lemma stream_len k data : length (stream k data) = k * length data.
  Proof. induction k as [|k IH]; auto. rewrite stream_S, app_length, IH. lia. Qed.

  (** the documented quantity would sum over all N errors of the epoch; the code leaves out the last *)
  Definition squares (es : list val) : vec := map (fun a => npown a 2) (concat (map val_list es)).
  Definition epoch_errors (j N : nat) (e : list val) : list val := slice e (j * N) (j * N + N).
  Definition partial_mse (j N : nat) (e : list val) : T :=
    ndiv (nsum (squares (firstn (N - 1) (epoch_errors j N e)))) (nofnat N).

  Lemma epoch_mse_eq e j N : (0 < N) -> epoch_mse e j N = partial_mse j N e.
  Proof.
    intros HN. unfold epoch_mse, partial_mse, squares, epoch_errors, slice. rewrite firstn_firstn.
    replace ((j + 1) * N - 1 - j * N) with (Nat.min (N - 1) (j * N + N - j * N)) by lia. reflexivity.
  Qed.
  Lemma partial_mse_app e e2 j N : (j + 1) * N <= length e -> partial_mse j N (e ++ e2) = partial_mse j N e.
  Proof.
    intros H. unfold partial_mse, epoch_errors, slice. do 4 f_equal.
    rewrite skipn_app, firstn_app, skipn_length. replace (j * N + N - j * N - (length e - j * N)) with 0 by lia.
    rewrite firstn_O, app_nil_r. reflexivity.
  Qed.

  Lemma epochs_loop_ok sizes k o data : Forall (sample_ok k o) data -> 0 < length data -> forall ep i e ms n, net_ok sizes k o n ->
    length e = i * length data -> ms = map (fun j => partial_mse j (length data) e) (seq 0 i) ->
    epochs_loop ep i data e ms n =
      (learned n (stream ep data),
       Ok (e ++ errors n (stream ep data),
           map (fun j => partial_mse j (length data) (e ++ errors n (stream ep data))) (seq 0 (i + ep)))).
  Proof.
    intros HF HN. induction ep as [|ep IH]; intros i e ms n H He Hm; cbn [epochs_loop].
    - unfold ret. unfold stream; simpl. rewrite app_nil_r, Nat.add_0_r, Hm. reflexivity.
    - unfold bind. rewrite (epoch_loop_ok sizes k o data n H HF).
      rewrite IH; [|apply learned_ok; auto|rewrite app_length, errors_len; lia|].
      + rewrite stream_S. replace (learned n (data ++ stream ep data)) with (learned (learned n data) (stream ep data)) by (unfold learned; rewrite fold_left_app; reflexivity).
        rewrite errors_app, app_assoc.
        replace (S i + ep) with (i + S ep) by lia. reflexivity.
      + rewrite seq_S, map_app. cbn [map]. f_equal.
        * rewrite Hm. apply map_ext_in. intros j Hj. apply in_seq in Hj. symmetry. apply partial_mse_app.
          rewrite He. nia.
        * simpl. rewrite epoch_mse_eq by auto. reflexivity.
  Qed.

  (** train: epochs * N predict/update steps in a fixed order, the a-priori errors in that order, and
      per epoch the partial mean of squares *)
  Theorem C47_train : forall sizes n_input outputs n x d ds epochs shuffle,
    net_reach sizes n_input outputs n -> rows_of n_input x -> x <> [] -> fits outputs (length x) d ds ->
    (forall idx, shuffle = Some idx -> Permutation idx (seq 0 (length x))) ->
    exists data, Permutation data (combine x ds) /\ (shuffle = None -> data = combine x ds) /\
      exists e mse, net_train x d epochs shuffle n = (learned n (stream epochs data), Ok (e, mse)) /\
        length e = epochs * length x /\ length mse = epochs /\
        (forall i ds0, i < epochs * length x ->
           nth i e (VNum n0) = minus (snd (nth (i mod length x) data ds0))
                                     (forward (learned n (firstn i (stream epochs data))) (fst (nth (i mod length x) data ds0)))) /\
        (forall j, j < epochs -> nth j mse n0 = partial_mse j (length x) e).
  Proof.
    intros sizes k o n x d ds ep sh H Hx Hne Hf Hs. apply net_reach_ok in H.
    destruct (check_ok sizes k o n x d ds H Hx Hne Hf) as (H1 & H2 & H3). unfold net_train. rewrite H1.
    set (data := match sh with None => combine x ds | Some idx => combine (take idx x []) (take idx ds (VNum n0)) end).
    assert (HN : 0 < length x) by (destruct x; [contradiction|simpl; lia]).
    assert (Hc : forall idx, combine (take idx x []) (take idx ds (VNum n0)) = map (fun i => nth i (combine x ds) ([], VNum n0)) idx).
    { intros idx. unfold take. induction idx as [|i idx IH]; simpl; auto. rewrite IH. f_equal. rewrite combine_nth by auto. reflexivity. }
    assert (Hp : Permutation data (combine x ds)).
    { unfold data. destruct sh as [idx|]; [|apply Permutation_refl]. rewrite Hc.
      eapply Permutation_trans; [apply Permutation_map, Hs; reflexivity|].
      assert (Hl : length x = length (combine x ds)) by (rewrite combine_length; lia). rewrite Hl.
      clear. generalize (combine x ds). intros l. rewrite <- (map_id l) at 2.
      assert (E : map (fun i => nth i l ([], VNum n0)) (seq 0 (length l)) = l); [|rewrite E, map_id; apply Permutation_refl].
      induction l as [|a l IH]; auto. cbn [length seq map nth]. f_equal. rewrite <- seq_shift, map_map. exact IH. }
    assert (Hld : length data = length x) by (rewrite (Permutation_length Hp), combine_length; lia).
    assert (HF : Forall (sample_ok k o) data).
    { eapply Permutation_Forall; [apply Permutation_sym; exact Hp|]. apply Forall_forall. intros [a b] Hab.
      pose proof (in_combine_l _ _ _ _ Hab) as Ha. pose proof (in_combine_r _ _ _ _ Hab) as Hb.
      unfold rows_of in Hx. rewrite Forall_forall in Hx, H3. split; simpl; auto. }
    exists data. split; auto. split; [intros ->; reflexivity|].
    pose proof (epochs_loop_ok sizes k o data HF ltac:(lia) ep 0 [] [] n H eq_refl eq_refl) as E.
    cbn [app Nat.add] in E. rewrite E. eexists _, _. split; [reflexivity|].
    split; [rewrite errors_len, stream_len, Hld; reflexivity|]. split; [rewrite map_length, seq_length; reflexivity|].
    split.
    - intros i ds0 Hi. rewrite (errors_nth _ _ _ ds0) by (rewrite stream_len, Hld; auto).
      assert (Hn : nth i (stream ep data) ds0 = nth (i mod length x) data ds0).
      { clear - Hld HN Hi. revert i Hi. induction ep as [|ep IH]; intros i Hi; [simpl in Hi; lia|]. rewrite stream_S.
        destruct (Nat.lt_ge_cases i (length x)).
        - rewrite app_nth1 by lia. rewrite Nat.mod_small by auto. reflexivity.
        - rewrite app_nth2 by lia. rewrite Hld, IH by (simpl in Hi; lia). f_equal.
          replace i with (i - length x + 1 * length x) at 2 by lia. rewrite Nat.mod_add by lia. reflexivity. }
      rewrite Hn. reflexivity.
    - intros j Hj. rewrite (nth_indep _ _ (partial_mse 0 (length data) (errors n (stream ep data)))) by (rewrite map_length, seq_length; auto).
      rewrite (map_nth (fun j => partial_mse j (length data) (errors n (stream ep data)))), seq_nth by auto. rewrite Hld. reflexivity.
  Qed.

  (** ** Consequences *)
  (** the complete state after a successful predict is determined by the parameters and the input *)
  Lemma predict_layers_det sizes : forall ls ls' k x, ls_ok k sizes ls -> ls_ok k sizes ls' -> length x = k ->
    map layer_par ls = map layer_par ls' -> predict_layers ls x = predict_layers ls' x.
  Proof.
    induction sizes as [|s sizes IH]; intros [|l ls] [|l' ls'] k x H H' Hx E; simpl in H, H'; try contradiction; auto.
    destruct H as (H1 & (H2 & H2') & H3 & H4), H' as (H1' & _ & H3' & H4').
    cbn [map] in E. injection E as E1 E2 E3 E4 E5. cbn [predict_layers]. unfold layer_predict.
    rewrite H1, H1', (assign_tail_eq _ _ _ H3 Hx), (assign_tail_eq _ _ _ H3' Hx), E1, E3, E4.
    rewrite (IH ls ls' s); auto. unfold wsum. rewrite !map_length, <- E3. auto.
  Qed.
  Lemma net_predict_det sizes k o x n n' : net_ok sizes k o n -> net_ok sizes k o n' -> length x = k ->
    params n = params n' -> net_predict x n = net_predict x n'.
  Proof.
    intros H H' Hx E. pose proof (net_predict_ok sizes k o x n H Hx) as (P1 & _). pose proof (net_predict_ok sizes k o x n' H' Hx) as (P1' & _).
    destruct H as (H1 & H2 & H3 & H4 & H5 & H6), H' as (H1' & H2' & H3' & H4' & H5' & H6').
    unfold params in E. injection E as E1 E2 E3 E4 E5. revert P1 P1'. unfold net_predict.
    rewrite (predict_layers_det sizes _ _ k x H4 H4' Hx E5).
    destruct (predict_layers (m_layers n') x) as [ls [h|e]]; [|intros P; discriminate P].
    destruct H5 as (t & Et & Ht), H5' as (t' & Et' & Ht'). rewrite Et, Et'. cbn [length]. rewrite Ht, Ht', E1, E2, E3, E4. simpl (S _ - 1). rewrite Nat.sub_0_r.
    unfold assign_tail. destruct (length h =? last sizes 0); cbn [firstn app].
    - destruct (match m_w n' with W1 w => _ | W2 w => _ end); [|intros P; discriminate P]. reflexivity.
    - destruct h as [|b [|? ?]]; try (intros P; discriminate P).
      destruct (match m_w n' with W1 w => _ | W2 w => _ end); [|intros P; discriminate P]. reflexivity.
  Qed.
  Lemma learn_det sizes k o s n n' : net_ok sizes k o n -> net_ok sizes k o n' -> length (fst s) = k ->
    params n = params n' -> learn n s = learn n' s.
  Proof. intros H H' Hs E. unfold learn. rewrite (net_predict_det sizes k o (fst s) n n'); auto. Qed.
  Lemma learned_det sizes k o l : forall n n', net_ok sizes k o n -> net_ok sizes k o n' -> Forall (sample_ok k o) l ->
    params n = params n' -> params (learned n l) = params (learned n' l) /\ errors n l = errors n' l.
  Proof.
    destruct l as [|s l]; intros n n' H H' HF E; [auto|]. inversion HF as [|? ? (Hs & _) _]; subst.
    unfold learned. cbn [fold_left errors]. rewrite (learn_det sizes _ o s n n' H H' eq_refl E), (forward_params n n' _ E). auto.
  Qed.

  (** any amount of inference between two trainings changes neither the errors that training reports
      nor the weights it arrives at *)
  Theorem C44_training_ignores_inference : forall sizes n_input outputs n ps x d ds epochs shuffle,
    net_reach sizes n_input outputs n ->
    Forall (fun p => match p with MPredict _ | MRun _ | MTest _ _ => True | _ => False end) ps ->
    rows_of n_input x -> x <> [] -> fits outputs (length x) d ds ->
    (forall idx, shuffle = Some idx -> Permutation idx (seq 0 (length x))) ->
    let n' := fold_left (fun m p => mexec p m) ps n in
    snd (net_train x d epochs shuffle n') = snd (net_train x d epochs shuffle n) /\
    params (fst (net_train x d epochs shuffle n')) = params (fst (net_train x d epochs shuffle n)).
  Proof.
    intros sizes k o n ps x d ds ep sh H Hps Hx Hne Hf Hs n'.
    assert (Hr : net_reach sizes k o n' /\ params n' = params n).
    { unfold n'. clear - H Hps. revert n H. induction Hps as [|p ps Hp HF IH]; intros n H; [auto|]. cbn [fold_left].
      destruct (IH (mexec p n) (reach_mop _ _ _ _ _ H)) as (I1 & I2). split; auto. rewrite I2. apply C44_inference_keeps_parameters; auto. }
    destruct Hr as (Hr & E). apply net_reach_ok in H. apply net_reach_ok in Hr.
    destruct (check_ok sizes k o n x d ds H Hx Hne Hf) as (H1 & H2 & H3).
    destruct (check_ok sizes k o n' x d ds Hr Hx Hne Hf) as (H1' & _). unfold net_train. rewrite H1, H1'.
    set (data := match sh with None => _ | Some idx => _ end).
    assert (HN : 0 < length x) by (destruct x; [contradiction|simpl; lia]).
    assert (Hin : forall i, i < length x -> sample_ok k o (nth i x [], nth i ds (VNum n0))).
    { intros i Hi. unfold rows_of in Hx. rewrite Forall_forall in Hx, H3. split; simpl; [apply Hx|apply H3]; apply nth_In; lia. }
    assert (HF : Forall (sample_ok k o) data /\ 0 < length data).
    { unfold data. destruct sh as [idx|].
      - specialize (Hs idx eq_refl). split.
        + assert (Hi : Forall (fun i => i < length x) idx).
          { eapply Permutation_Forall; [apply Permutation_sym; exact Hs|]. apply Forall_forall. intros i Hi; apply in_seq in Hi; lia. }
          unfold take. clear - Hi Hin. induction Hi as [|i idx Hi HF IH]; simpl; constructor; auto.
        + unfold take. rewrite combine_length, !map_length, (Permutation_length Hs), seq_length. lia.
      - split; [|rewrite combine_length; lia]. apply Forall_forall. intros [a b] Hab.
        pose proof (in_combine_l _ _ _ _ Hab) as Ha. pose proof (in_combine_r _ _ _ _ Hab) as Hb.
        unfold rows_of in Hx. rewrite Forall_forall in Hx, H3. split; simpl; auto. }
    destruct HF as (HF & HL).
    rewrite (epochs_loop_ok sizes k o data HF HL ep 0 [] [] n H eq_refl eq_refl).
    rewrite (epochs_loop_ok sizes k o data HF HL ep 0 [] [] n' Hr eq_refl eq_refl). cbn [fst snd app].
    assert (HFs : Forall (sample_ok k o) (stream ep data)).
    { clear - HF. induction ep as [|ep IH]; [constructor|]. rewrite stream_S. apply Forall_app; auto. }
    destruct (learned_det sizes k o (stream ep data) n' n Hr H HFs E) as (L1 & L2). rewrite L2. auto.
  Qed.

  (** *** C48: what other arguments do *)
  Lemma ls_cons sizes k ls : ls_ok k sizes ls -> sizes <> [] -> exists l ls', ls = l :: ls' /\ l_n l = k /\ starts_one k (l_x l).
  Proof.
    destruct sizes as [|s sizes]; [contradiction|]. destruct ls as [|l ls]; simpl; intros H; [contradiction|].
    destruct H as (H1 & _ & H3 & _). exists l, ls. auto.
  Qed.
  (** predict rejects inputs of the wrong length, except of length 1, and leaves the network alone *)
  Theorem C48_wrong_width : forall sizes n_input outputs n x, net_reach sizes n_input outputs n ->
    length x <> n_input -> length x <> 1 -> net_predict x n = (n, Err ValueError).
  Proof.
    intros sizes k o n x H Hx H1. apply net_reach_ok in H. destruct H as (_ & _ & Hs & Hl & _).
    destruct (ls_cons _ _ _ Hl Hs) as (l & ls & El & Hn & Hxl). unfold net_predict. rewrite El. cbn [predict_layers].
    unfold layer_predict, assign_tail. rewrite Hn. destruct (Nat.eqb_spec (length x) k); [contradiction|].
    destruct x as [|a [|b x]]; try (simpl in H1; lia); rewrite <- El; destruct n; reflexivity.
  Qed.
  (** an input of length 1 is silently repeated n_input times *)
  Theorem C48_width_one_accepted : forall sizes n_input outputs n a, net_reach sizes n_input outputs n ->
    net_predict [a] n = net_predict (repeat a n_input) n.
  Proof.
    intros sizes k o n a H. apply net_reach_ok in H. destruct H as (_ & _ & Hs & Hl & _).
    destruct (ls_cons _ _ _ Hl Hs) as (l & ls & El & Hn & Hxl).
    assert (E : layer_predict [a] l = layer_predict (repeat a k) l).
    { unfold layer_predict, assign_tail. rewrite Hn, repeat_length, Nat.eqb_refl.
      destruct (Nat.eqb_spec (length [a]) k) as [E|E]; [simpl in E; rewrite <- E; reflexivity|reflexivity]. }
    unfold net_predict. rewrite El. cbn [predict_layers]. rewrite E. reflexivity.
  Qed.

  (** update before the first predict: unless the last hidden layer has one node more than inputs, it
      raises ValueError, and the output weights have already been changed *)
  Lemma rev_hd_layers rng f mu : forall sizes i k ls s r, new_layers rng i sizes k f mu = Ok ls -> rev sizes = s :: r ->
    exists ls' l, ls = ls' ++ [l] /\ length (l_y l) = match r with [] => k | p :: _ => p end + 1 /\ match r with [] => k | p :: _ => p end <> 0.
  Proof.
    induction sizes as [|a sizes IH]; intros i k ls s r E Er; [discriminate|]. cbn [new_layers] in E.
    unfold new_layer, inv_sqrt in E. destruct (Nat.eqb_spec k 0) as [|Hk]; [discriminate|]. cbn [rbind] in E.
    destruct (new_layers rng (S i) sizes a f mu) as [ls'|] eqn:El; [|discriminate]. injection E as <-.
    cbn [rev] in Er. destruct (rev sizes) as [|s' r'] eqn:Es.
    - assert (sizes = []) by (rewrite <- (rev_involutive sizes), Es; reflexivity). subst sizes. cbn [new_layers] in El. injection El as <-.
      simpl in Er. injection Er as <- <-. eexists [], _. split; [reflexivity|]. split; [simpl; apply repeat_length|auto].
    - simpl in Er. injection Er as -> <-. destruct (IH (S i) a ls' s r' El eq_refl) as (ls0 & l & -> & Hy).
      eexists (_ :: ls0), l. split; [reflexivity|]. destruct r'; exact Hy.
  Qed.
  Lemma update_layers_last ls : forall l w e,
    match snd (layer_update w e l) with
    | Err x => update_layers (ls ++ [l]) w e = (ls ++ [fst (layer_update w e l)], Err x)
    | Ok (w', e') => update_layers (ls ++ [l]) w e =
        (fst (update_layers ls w' e') ++ [fst (layer_update w e l)], snd (update_layers ls w' e'))
    end.
  Proof.
    intros l w e. induction ls as [|a ls IH]; cbn [app update_layers].
    - destruct (layer_update w e l) as [l' [[w' e']|x]]; reflexivity.
    - destruct (snd (layer_update w e l)) as [[w' e']|x].
      + rewrite IH. destruct (update_layers ls w' e') as [ls' [[w2 e2]|x]]; cbn [fst snd]; auto.
        destruct (layer_update w2 e2 a); reflexivity.
      + rewrite IH. reflexivity.
  Qed.
  Lemma ls_ok_last ss : forall k ls s l, ls_ok k (ss ++ [s]) (ls ++ [l]) ->
    l_n l = last ss k /\ msh s (last ss k + 1) (l_w l) /\ starts_one (last ss k) (l_x l).
  Proof.
    induction ss as [|a ss IH]; intros k [|b ls] s l H; cbn [app ls_ok] in H.
    - destruct H as (H1 & H2 & H3 & _). auto.
    - destruct H as (_ & _ & _ & H). destruct ls; contradiction.
    - destruct H as (_ & _ & _ & H). destruct ss; contradiction.
    - destruct H as (_ & _ & _ & H). specialize (IH a ls s l H).
      replace (last (a :: ss) k) with (last ss a); auto. destruct ss; auto. exact (last_indep ss n a k).
  Qed.
  Theorem C48_update_before_predict : forall rng1 rng sizes n_input outputs f mu n d s r,
    rngs_ok rng1 rng -> new_net rng1 rng sizes n_input outputs f mu = Ok n -> vlen d outputs ->
    rev sizes = s :: r -> s <> match r with [] => n_input | p :: _ => p end + 1 ->
    snd (net_update d n) = Err ValueError /\
    m_w (fst (net_update d n)) =
      match m_w n, d with
      | W1 w, VNum a => W1 (map2 nadd w (map (nmul (nmul (m_mu n) (nsub a n0))) (ones (s + 1))))
      | W2 W, VArr v => W2 (map2 (map2 nadd) W (mscale (m_mu n) (outer (map (fun a => nsub a n0) v) (ones (s + 1)))))
      | w, _ => w
      end.
  Proof.
    intros rng1 rng sizes k o f mu n d s r Hr E Hd Er Hs.
    pose proof (net_reach_ok _ _ _ _ (reach_net _ _ _ rng1 rng f mu n Hr E)) as (N1 & N2 & N3 & N4 & N5 & N6).
    unfold new_net in E. rewrite Er in E. destruct (inv_sqrt s) as [sigma|]; [|discriminate]. cbn [rbind] in E.
    destruct (match mu with MuAuto => _ | MuNum a => _ | MuBad => _ end) as [m|]; [|discriminate]. cbn [rbind] in E.
    destruct (new_layers rng 1 sizes k f mu) as [ls|] eqn:El; [|discriminate]. injection E as <-.
    destruct (rev_hd_layers _ _ _ _ _ _ _ _ _ El Er) as (ls' & l & -> & Hy & Hp0). clear El.
    set (p := match r with [] => k | p :: _ => p end) in *.
    pose proof (rev_last sizes s r 0 Er) as Hla. rewrite Hla in *. cbn [m_n m_outputs m_layers m_x m_w m_mu m_y] in *.
    assert (Hsz : sizes = rev r ++ [s]) by (rewrite <- (rev_involutive sizes), Er; reflexivity).
    assert (Hpl : p = last (rev r) k) by (unfold p; destruct r as [|q r]; auto; cbn [rev]; rewrite last_last; auto).
    rewrite Hsz in N4. apply ls_ok_last in N4. rewrite <- Hpl in N4. destruct N4 as (Hln & (Hlw & _) & Hlx).
    assert (Hlu : forall w e, (match w, e with W1 wv, VNum _ => length wv = s | W2 _, VArr _ => True | _, _ => False end) ->
      layer_update w e l = (l, Err ValueError)).
    { intros w e Hw. unfold layer_update.
      assert (Hle : layer_error w e l = Err ValueError \/ exists el, layer_error w e l = Ok el /\ s = 1 /\ length el = p + 1).
      { assert (Hbc : forall u v : vec, length u = p + 1 -> length v = s ->
          bc_mul u v = Err ValueError \/ exists el, bc_mul u v = Ok el /\ s = 1 /\ length el = p + 1).
        { intros u v Hu Hv. unfold bc_mul, bc. destruct (Nat.eqb_spec (length u) (length v)); [lia|].
          destruct u as [|u0 [|u1 u]]; simpl in Hu; try lia. destruct v as [|v0 [|v1 v]]; simpl in Hv; auto.
          right. eexists. split; [reflexivity|]. split; [lia|]. simpl. rewrite map_length. lia. }
        destruct w as [wv|wm], e as [a|ev]; try contradiction; cbn [layer_error].
        - cbn [mul_val rbind]. apply Hbc; [rewrite !map_length; auto|auto].
        - unfold vmdot. destruct (length ev =? length wm); cbn [rbind]; auto.
          apply Hbc; [rewrite map_length; auto|rewrite map_length, seq_length; auto]. }
      destruct Hle as [->|(el & -> & Hs1 & Hel)]; auto.
      unfold iadd2. rewrite outer_len, Hel, Hlw, Hs1.
      destruct (Nat.eqb_spec (p + 1) 1); [lia|].
      destruct el as [|e0 [|e1 el]]; simpl in Hel; try lia. reflexivity. }
    unfold net_update. cbn [m_y m_mu m_x m_w m_layers m_n m_outputs] in *.
    assert (Hlu' : forall w e, (match w, e with W1 wv, VNum _ => length wv = s | W2 _, VArr _ => True | _, _ => False end) ->
      snd (update_layers (ls' ++ [l]) w e) = Err ValueError).
    { intros w e Hw. pose proof (update_layers_last ls' l w e) as Hu. rewrite (Hlu w e Hw) in Hu. cbn [fst snd] in Hu. rewrite Hu. reflexivity. }
    destruct (Nat.eqb_spec o 1) as [Eo|Eo].
    - destruct N6 as (_ & N6). destruct d as [a|v]; [|destruct Hd; contradiction]. cbn [val_sub out_step rbind].
      assert (Hon : length (ones (s + 1)) = s + 1) by apply repeat_length.
      unfold iadd1. rewrite !map_length, !Hon, !N6, !Nat.eqb_refl. cbn [rmap].
      assert (Ht : length (tl (rng1 sigma (s + 1))) = s) by (destruct (rng1 sigma (s + 1)); simpl in *; lia).
      pose proof (Hlu' (W1 (tl (rng1 sigma (s + 1)))) (VNum (nsub a n0)) Ht) as Hu.
      destruct (update_layers (ls' ++ [l]) _ _) as [lr rr]. cbn [snd] in Hu. subst rr. split; reflexivity.
    - destruct N6 as (_ & N6 & _). destruct d as [a|v]; [simpl in Hd; contradiction|]. destruct Hd as (_ & Hd). cbn [val_sub out_step val_list].
      rewrite !iadd2_same by (rewrite outer_len, map_length; lia). cbn [rmap].
      pose proof (Hlu' (W2 (map (@tl T) (rng 0 sigma o (s + 1)))) (VArr (map (fun a => nsub a n0) v)) I) as Hu.
      destruct (update_layers (ls' ++ [l]) _ _) as [lr rr]. cbn [snd] in Hu. subst rr. split; reflexivity.
  Qed.
End MLP.
