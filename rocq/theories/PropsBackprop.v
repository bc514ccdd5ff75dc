(** Property C66: one learning step of the perceptron, weight by weight, in every layer: the recursion the
    code follows, stated with scalars only, and that this recursion has exactly one solution. *)
From Coq Require Import Reals Lra Psatz QArith Permutation.
From Verif Require Import Py Num Numpy StructProofs Spec RVec RMat Mlp PropsMLP PropsMLPR.
Open Scope nat_scope.

Section Structure.
  Context {T : Type} {NT : Num T}.
  Notation vec := (list T).
  Notation mat := (list (list T)).
  Notation net := (net T).
  Notation layer := (layer T).
  Notation val := (val T).

  (** networks made by the constructor with activation f and argument mu, and used in any way since *)
  Inductive net_of (sizes : list nat) (n_input outputs : nat) (f : actf) (mu : muarg T) : net -> Prop :=
  | made rng1 rng n : rngs_ok rng1 rng -> new_net rng1 rng sizes n_input outputs f mu = Ok n -> net_of sizes n_input outputs f mu n
  | used n p : net_of sizes n_input outputs f mu n -> net_of sizes n_input outputs f mu (mexec p n).
  Lemma net_of_reach sizes k o f mu n : net_of sizes k o f mu n -> net_reach sizes k o n.
  Proof. induction 1; [eapply reach_net; eauto|apply reach_mop; auto]. Qed.

  (** what no call ever changes *)
  Definition statics (n : net) : T * list (T * actf) := (m_mu n, map (fun l => (l_mu l, l_f l)) (m_layers n)).
  Lemma params_statics n n' : params n = params n' -> statics n = statics n'.
  Proof.
    unfold params, statics. intros E. injection E as E1 _ _ _ E5. f_equal; auto.
    assert (Hm : forall ls : list layer, map (fun l => (l_mu l, l_f l)) ls = map (fun t => (fst (fst (fst t)), snd t)) (map layer_par ls)).
    { intros ls. rewrite map_map. apply map_ext. intros l. reflexivity. }
    rewrite !Hm, E5. reflexivity.
  Qed.
  Lemma layer_update_statics w e (l : layer) : l_mu (fst (layer_update w e l)) = l_mu l /\ l_f (fst (layer_update w e l)) = l_f l.
  Proof. unfold layer_update. destruct (layer_error w e l); auto. destruct (iadd2 _ _); auto. Qed.
  Lemma update_layers_statics (ls : list layer) : forall w e,
    map (fun l => (l_mu l, l_f l)) (fst (update_layers ls w e)) = map (fun l => (l_mu l, l_f l)) ls.
  Proof.
    induction ls as [|l ls IH]; intros w e; auto. cbn [update_layers]. specialize (IH w e).
    destruct (update_layers ls w e) as [ls' [[w' e']|x]]; cbn [fst] in *; [|simpl; rewrite IH; auto].
    pose proof (layer_update_statics w' e' l) as (H1 & H2). destruct (layer_update w' e' l) as [l' r]. cbn [fst map] in *.
    rewrite H1, H2, IH. reflexivity.
  Qed.
  Lemma net_update_statics d (n : net) : statics (fst (net_update d n)) = statics n.
  Proof.
    unfold net_update. destruct (val_sub d (m_y n)) as [e|]; auto. destruct (out_step _ _ _ _) as [[w' wold]|]; auto.
    pose proof (update_layers_statics (m_layers n) wold e) as H. destruct (update_layers (m_layers n) wold e) as [ls r].
    unfold statics. cbn [fst m_mu m_layers] in *. rewrite H. reflexivity.
  Qed.
  Lemma epoch_loop_statics data : forall n : net, statics (fst (epoch_loop data n)) = statics n.
  Proof.
    induction data as [|[x d] data IH]; intros n; auto. cbn [epoch_loop]. unfold bind.
    pose proof (params_statics _ _ (net_predict_params x n)) as Hp. destruct (net_predict x n) as [n1' [y|]]; auto. cbn [fst] in Hp.
    pose proof (net_update_statics d n1') as Hu. destruct (net_update d n1') as [n2' [e|]]; cbn [fst] in *; try congruence.
    specialize (IH n2'). destruct (epoch_loop data n2') as [n3 [es|]]; cbn [fst ret] in *; congruence.
  Qed.
  Lemma epochs_loop_statics data : forall ep i e ms (n : net), statics (fst (epochs_loop ep i data e ms n)) = statics n.
  Proof.
    induction ep as [|ep IH]; intros i e ms n; auto. cbn [epochs_loop]. unfold bind.
    pose proof (epoch_loop_statics data n) as Hp. destruct (epoch_loop data n) as [n' [es|]]; cbn [fst] in *; auto. rewrite IH; auto.
  Qed.
  Lemma mexec_statics p n : statics (mexec p n) = statics n.
  Proof.
    destruct p as [x|d|x d ep sh|x|x d]; cbn [mexec].
    - apply params_statics, net_predict_params.
    - apply net_update_statics.
    - unfold net_train. destruct (check_data x d n); auto. apply epochs_loop_statics.
    - apply params_statics, net_run_params.
    - apply params_statics, net_test_params.
  Qed.

  (** *** the forward pass leaves the activities in the layers *)
  Definition act_at (ls : list layer) (x : vec) (q : nat) : vec := hidden (map layer_par (firstn q ls)) x.
  Lemma predict_layers_state sizes : forall ls k x q dl, ls_ok k sizes ls -> length x = k -> q < length ls ->
    let l := nth q ls dl in
    nth q (fst (predict_layers ls x)) dl = mkLayer (l_mu l) (l_n l) (l_w l) (n1 :: act_at ls x q) (act_at ls x (S q)) (l_f l).
  Proof.
    induction sizes as [|s sizes IH]; intros [|l ls] k x q dl H Hx Hq; simpl in H; try contradiction; [simpl in Hq; lia|].
    destruct H as (H1 & (H2 & H2') & H3 & H4). cbn [predict_layers]. unfold layer_predict. rewrite H1, (assign_tail_eq _ _ _ H3 Hx).
    unfold wsum. rewrite map_map. set (y := map _ (l_w l)). assert (Hy : length y = s) by (unfold y; rewrite map_length; auto).
    destruct q as [|q]; cbn [nth].
    - destruct (predict_layers ls y) as [ls' r]. cbn [fst nth]. unfold act_at. cbn [firstn map hidden layer_par]. rewrite H1. reflexivity.
    - pose proof (IH ls s y q dl H4 Hy ltac:(simpl in Hq; lia)) as I. cbv zeta in I.
      destruct (predict_layers ls y) as [ls' r]. cbn [fst nth] in *. rewrite I. unfold act_at. reflexivity.
  Qed.
  Lemma predict_layers_len (ls : list layer) x : length (fst (predict_layers ls x)) = length ls.
  Proof. rewrite <- (map_length layer_par), predict_layers_par, map_length. reflexivity. Qed.

  (** *** the backward pass, layer by layer *)
  Definition from_next (ls' : list layer) (del : mat) (w : wts T) (e : val) (dl : layer) (Q q : nat) : wts T * val :=
    if S q =? Q then (w, e) else (W2 (map (@tl T) (l_w (nth (S q) ls' dl))), VArr (nth (S q) del [])).
  Lemma update_layers_state sizes : forall ls k w e dl, ls_ok k sizes ls -> Forall2 (fun s l => length (l_y l) = s) sizes ls ->
    handed (last sizes k) w e -> sizes <> [] ->
    exists ls' del, length del = length ls /\ length ls' = length ls /\
      update_layers ls w e = (ls', Ok (W2 (map (@tl T) (l_w (nth 0 ls' dl))), VArr (nth 0 del []))) /\
      forall q, q < length ls -> let l := nth q ls dl in
        layer_error (fst (from_next ls' del w e dl (length ls) q)) (snd (from_next ls' del w e dl (length ls) q)) l = Ok (nth q del []) /\
        length (nth q del []) = length (l_w l) /\
        l_w (nth q ls' dl) = map2 (map2 nadd) (l_w l) (mscale (l_mu l) (outer (nth q del []) (l_x l))).
  Proof.
    induction sizes as [|s sizes IH]; intros [|l ls] k w e dl H Hy Hh Hne; simpl in H; try contradiction. clear Hne.
    destruct H as (H1 & H2 & H3 & H4). inversion Hy as [|? ? ? ? Hyl Hy']; subst.
    set (s := length (l_y l)) in *. set (k := l_n l) in *.
    assert (Hh' : handed (last sizes s) w e).
    { replace (last sizes s) with (last (s :: sizes) k); auto. destruct sizes as [|a r]; auto. exact (last_indep r a _ _). }
    assert (Hlu : forall w1 e1, handed s w1 e1 -> exists el, layer_error w1 e1 l = Ok el /\ length el = length (l_w l) /\
       layer_update w1 e1 l = (mkLayer (l_mu l) (l_n l) (map2 (map2 nadd) (l_w l) (mscale (l_mu l) (outer el (l_x l)))) (l_x l) (l_y l) (l_f l),
         Ok (W2 (map (@tl T) (map2 (map2 nadd) (l_w l) (mscale (l_mu l) (outer el (l_x l))))), VArr el))).
    { intros w1 e1 Hw. pose proof (starts_one_len _ _ H3) as Hxl. pose proof H2 as (Hlw & _).
      assert (He : exists el, layer_error w1 e1 l = Ok el /\ length el = s).
      { destruct w1 as [wv|wm]; simpl in *.
        - destruct Hw as (Hl & He). destruct e1 as [a|]; [|contradiction]. simpl. unfold bc_mul.
          rewrite bc_same by (rewrite !map_length; fold s; lia). eexists; split; [reflexivity|]. rewrite map2_len, !map_length. fold s; lia.
        - destruct Hw as (q & (Hq & _) & He). destruct e1 as [|ev]; [contradiction|]. unfold vmdot.
          replace (length ev =? length wm) with true by (symmetry; apply Nat.eqb_eq; lia). cbn [rbind]. unfold bc_mul.
          rewrite bc_same by (rewrite !map_length, seq_length; fold s; lia).
          eexists; split; [reflexivity|]. rewrite map2_len, !map_length, seq_length. fold s; lia. }
      destruct He as (el & Ee & Hel). exists el. split; auto. split; [lia|]. unfold layer_update. rewrite Ee.
      rewrite iadd2_same by (rewrite outer_len; lia). reflexivity. }
    cbn [update_layers].
    destruct sizes as [|s2 sizes2] eqn:Es.
    - destruct ls as [|? ?]; [|simpl in H4; contradiction]. cbn [update_layers]. cbn [last] in Hh'.
      destruct (Hlu w e Hh') as (el & Le & Ll & Lu). rewrite Lu. exists [(mkLayer (l_mu l) (l_n l) (map2 (map2 nadd) (l_w l) (mscale (l_mu l) (outer el (l_x l)))) (l_x l) (l_y l) (l_f l))], [el]. split; [reflexivity|]. split; [reflexivity|].
      split; [reflexivity|]. intros [|q] Hq; [|simpl in Hq; lia]. cbn [nth from_next length Nat.eqb fst snd]. auto.
    - rewrite <- Es in *. assert (Hne : sizes <> []) by congruence. clear Es s2 sizes2.
      destruct (IH ls s w e dl H4 Hy' Hh' Hne) as (ls' & del & D1 & D2 & U & Hq).
      destruct (update_layers_ok sizes ls s w e H4 Hy' Hh') as (w1 & e1 & U1 & U2 & _). rewrite U in U1. cbn [snd] in U1.
      rewrite U. apply (f_equal (fun r => match r with Ok a => a | Err _ => (w1, e1) end)) in U1. cbv beta iota in U1.
      apply pair_equal_spec in U1 as (<- & <-).
      destruct (Hlu _ _ U2) as (el & Le & Ll & Lu). rewrite Lu. exists ((mkLayer (l_mu l) (l_n l) (map2 (map2 nadd) (l_w l) (mscale (l_mu l) (outer el (l_x l)))) (l_x l) (l_y l) (l_f l)) :: ls'), (el :: del).
      split; [simpl; lia|]. split; [simpl; lia|]. split; [reflexivity|].
      assert (Hln : 0 < length ls).
      { destruct sizes; [contradiction|]. inversion Hy'; subst. simpl; lia. }
      intros [|q] Hq1; cbn [nth].
      + unfold from_next. cbn [length]. replace (1 =? S (length ls)) with false by (symmetry; apply Nat.eqb_neq; lia).
        cbn [fst snd nth l_w]. auto.
      + cbn [length] in Hq1. specialize (Hq q ltac:(lia)). cbv zeta in Hq. unfold from_next in *. cbn [length nth].
        change (S (S q) =? S (length ls)) with (S q =? length ls). exact Hq.
  Qed.

  Lemma mk_eta (l : layer) : mkLayer (l_mu l) (l_n l) (l_w l) (l_x l) (l_y l) (l_f l) = l.
  Proof. destruct l; reflexivity. Qed.
  Lemma ls_ok_nth sizes : forall ls k q dl, ls_ok k sizes ls -> q < length ls ->
    l_n (nth q ls dl) = nth q (k :: sizes) 0 /\ msh (nth (S q) (k :: sizes) 0) (nth q (k :: sizes) 0 + 1) (l_w (nth q ls dl)).
  Proof.
    induction sizes as [|s sizes IH]; intros [|l ls] k q dl H Hq; simpl in H; try contradiction; [simpl in Hq; lia|].
    destruct H as (H1 & H2 & H3 & H4). destruct q as [|q]; [auto|]. specialize (IH ls s q dl H4 ltac:(simpl in Hq; lia)). exact IH.
  Qed.
  Lemma ls_ok_len sizes : forall ls k, ls_ok k sizes ls -> length ls = length sizes.
  Proof.
    induction sizes as [|s sizes IH]; intros [|l ls] k H; simpl in H; try contradiction; auto.
    destruct H as (_ & _ & _ & H). simpl. f_equal. eauto.
  Qed.
  Lemma last_nth (l : list nat) : forall k, last l k = nth (length l) (k :: l) 0.
  Proof. induction l as [|a l IH]; intros k; auto. change (last (a :: l) k = nth (length l) (a :: l) 0). rewrite <- IH.
    destruct l as [|b l]; auto. exact (last_indep l b k a). Qed.

  (** one learning step in one picture *)
  Lemma learn_state sizes k o n x d dl : net_ok sizes k o n -> length x = k -> vlen d o ->
    let ls := m_layers n in let Q := length ls in
    let l q := nth q ls dl in
    let e := minus d (forward n x) in
    exists w' wold ls' del, out_step (m_mu n) e (n1 :: act_at ls x Q) (m_w n) = Ok (w', wold) /\
      m_w (learn n (x, d)) = w' /\ m_layers (learn n (x, d)) = ls' /\ length ls' = Q /\
      forall q, q < Q ->
        let lq := mkLayer (l_mu (l q)) (l_n (l q)) (l_w (l q)) (n1 :: act_at ls x q) (act_at ls x (S q)) (l_f (l q)) in
        layer_error (fst (from_next ls' del wold e dl Q q)) (snd (from_next ls' del wold e dl Q q)) lq = Ok (nth q del []) /\
        length (nth q del []) = length (l_w (l q)) /\
        l_w (nth q ls' dl) = map2 (map2 nadd) (l_w (l q)) (mscale (l_mu (l q)) (outer (nth q del []) (n1 :: act_at ls x q))).
  Proof.
    intros H Hx Hd ls Q l e.
    destruct (net_predict_ok sizes k o x n H Hx) as (P1 & P2 & P3 & P4).
    pose proof (net_predict_inv _ _ _ x n H) as Hi.
    set (n1' := fst (net_predict x n)) in *.
    pose proof H as (N1 & N2 & N3 & N4 & N5 & N6). pose proof Hi as (I1 & I2 & I3 & I4 & I5 & I6).
    assert (En : m_mu n1' = m_mu n /\ m_w n1' = m_w n /\ m_x n1' = n1 :: act_at ls x Q /\ m_layers n1' = fst (predict_layers ls x)).
    { unfold n1', net_predict. destruct (predict_layers_ok sizes (m_layers n) k x N4 Hx) as (Q1 & Q2 & _). fold ls in Q1, Q2 |- *.
      destruct (predict_layers ls x) as [ls1 r]. cbn [snd fst] in *. subst r.
      assert (Ea : act_at ls x Q = hidden (map layer_par ls) x) by (unfold act_at, Q; rewrite firstn_all; reflexivity).
      rewrite Ea. pose proof (starts_one_len _ _ N5) as Hxl. replace (length (m_x n) - 1) with (last sizes 0) by lia.
      assert (Hlast : last sizes k = last sizes 0) by (destruct sizes as [|s0 sizes0]; [contradiction|apply last_indep]).
      rewrite (assign_tail_eq _ _ _ N5) by congruence.
      destruct (m_w n) as [w|W]; [|cbn [fst m_mu m_w m_x m_layers]; auto].
      unfold vdot. destruct (_ =? _); cbn [rmap fst m_mu m_w m_x m_layers]; auto. }
    destruct En as (M1 & M2 & M3 & M4).
    destruct (net_update_ok sizes k o d n1' Hi P2 Hd) as (U1 & U2).
    assert (V3 : vlen (m_y n1') o) by (rewrite P4; auto).
    destruct (val_sub_minus o d (m_y n1') Hd V3) as (V1 & V2). rewrite P4 in V1, V2. fold e in V1, V2.
    unfold learn. cbn [fst snd]. fold n1'. unfold net_update in *. rewrite P4 in *. rewrite V1 in *. rewrite M1, M2, M3 in *.
    destruct (out_step (m_mu n) e (n1 :: act_at ls x Q) (m_w n)) as [[w' wold]|] eqn:Eo; [|discriminate U1].
    assert (Hlast : last sizes k = last sizes 0) by (destruct sizes as [|s0 sizes0]; [contradiction|apply last_indep]).
    assert (Hh : handed (last sizes k) wold e).
    { unfold out_step in Eo. destruct (m_w n) as [w|W].
      - destruct N6 as (N6 & N7). destruct e as [a|v]; [|destruct V2; contradiction]. cbn [rbind] in Eo.
        destruct (iadd1 w _) as [w1|]; [|discriminate]. apply (f_equal (fun r => match r with Ok (_, a) => a | Err _ => W1 [] end)) in Eo.
        cbn [rmap] in Eo. subst wold. cbn [handed]. split; auto. rewrite Hlast. destruct w; simpl in *; lia.
      - destruct N6 as (N6 & N7 & N8). destruct e as [a|v]; [simpl in V2; contradiction|]. destruct V2 as (_ & V2).
        destruct (iadd2 W _) as [w1|]; [|discriminate]. apply (f_equal (fun r => match r with Ok (_, a) => a | Err _ => W1 [] end)) in Eo.
        cbn [rmap] in Eo. subst wold. cbn [handed]. exists o. split; auto. split; [rewrite map_length; auto|]. rewrite Forall_map.
        eapply Forall_impl; [|exact N8]. intros a Ha; simpl in Ha. rewrite Hlast. destruct a; simpl in *; lia. }
    destruct P2 as (R1 & _).
    destruct (update_layers_state sizes (m_layers n1') k wold e dl I4 R1 Hh N3) as (ls' & del & D1 & D2 & U & Hq).
    rewrite U. cbn [fst m_w m_layers]. exists w', wold, ls', del. rewrite M4, predict_layers_len in *. fold Q in D1, D2, Hq.
    do 4 (split; [auto|]). intros q Hq1. specialize (Hq q Hq1). cbv zeta in Hq |- *.
    rewrite (predict_layers_state sizes ls k x q dl N4 Hx Hq1) in Hq. exact Hq.
  Qed.
End Structure.

Open Scope R_scope.

(** ** Specification: numbers only.  W q r c: weight of node r of hidden layer q for its input c, where input 0
    is the constant 1; V r c: the same for output r.  [width q]: the number of inputs of layer q. *)
Section Formulas.
  Definition logistic (z : R) : R := 1 / (1 + exp (- z)).
  Definition squash (f : actf) (z : R) : R := match f with Sigmoid => logistic z | Tanh => tanh z end.
  (** the slope of the activation where its value is y *)
  Definition slope (f : actf) (y : R) : R := match f with Sigmoid => y * (1 - y) | Tanh => 1 - y * y end.
  Definition width (n_input : nat) (sizes : list nat) (q : nat) : nat := nth q (n_input :: sizes) 0%nat.
  (** input number c of a layer fed with a *)
  Definition lead (a : nat -> R) (c : nat) : R := match c with O => 1 | S j => a j end.
  (** the activities: the input vector, then layer after layer *)
  Fixpoint activity (f : actf) (wd : nat -> nat) (W : nat -> nat -> nat -> R) (x : nat -> R) (q : nat) : nat -> R :=
    match q with
    | O => x
    | S p => fun r => squash f (W p r 0%nat + sumn (wd p) (fun j => W p r (S j) * activity f wd W x p j))
    end.
  Definition response (wd : nat) (V : nat -> nat -> R) (a : nat -> R) (r : nat) : R :=
    V r 0%nat + sumn wd (fun j => V r (S j) * a j).

  (** one learning step of a network with Q hidden layers and o outputs: from weights W, V to W', V'.
      Two oddities of the code are visible: the factor (1 - activity) unless the network has one output and the
      layer is its last, and that the error of a layer is propagated through the NEW weights of the layer above
      (but through the OLD output weights). *)
  Definition learning_step (f : actf) (wd : nat -> nat) (Q o : nat) (rate : nat -> R) (rate_out : R)
      (x d : nat -> R) (W : nat -> nat -> nat -> R) (V : nat -> nat -> R)
      (W' : nat -> nat -> nat -> R) (V' : nat -> nat -> R) (e : nat -> R) : Prop :=
    let a := activity f wd W x in
    exists delta : nat -> nat -> R,
      (forall r, (r < o)%nat -> e r = d r - response (wd Q) V (a Q) r) /\
      (forall r c, (r < o)%nat -> (c <= wd Q)%nat -> V' r c = V r c + rate_out * e r * lead (a Q) c) /\
      (forall q r c, (q < Q)%nat -> (r < wd (S q))%nat -> (c <= wd q)%nat ->
         W' q r c = W q r c + rate q * delta q r * lead (a q) c) /\
      (forall r, (r < wd Q)%nat -> delta (Q - 1)%nat r =
         slope f (a Q r) * (if Nat.eqb o 1 then e 0%nat * V 0%nat (S r)
                            else (1 - a Q r) * sumn o (fun i => e i * V i (S r)))) /\
      (forall q r, (S q < Q)%nat -> (r < wd (S q))%nat -> delta q r =
         slope f (a (S q) r) * (1 - a (S q) r) * sumn (wd (S (S q))) (fun i => delta (S q) i * W' (S q) i (S r))).

  (** the step has exactly one outcome *)
  Theorem C66_step_determined : forall f wd Q o rate rate_out x d W V W1 V1 e1 W2 V2 e2, (0 < Q)%nat ->
    learning_step f wd Q o rate rate_out x d W V W1 V1 e1 -> learning_step f wd Q o rate rate_out x d W V W2 V2 e2 ->
    (forall r, (r < o)%nat -> e1 r = e2 r) /\
    (forall r c, (r < o)%nat -> (c <= wd Q)%nat -> V1 r c = V2 r c) /\
    (forall q r c, (q < Q)%nat -> (r < wd (S q))%nat -> (c <= wd q)%nat -> W1 q r c = W2 q r c).
  Proof.
    intros f wd Q o rate ro x d W V W1 V1 e1 W2 V2 e2 HQ (D1 & A1 & A2 & A3 & A4 & A5) (D2 & B1 & B2 & B3 & B4 & B5).
    assert (He : forall r, (r < o)%nat -> e1 r = e2 r) by (intros; rewrite A1, B1; auto).
    split; auto. split; [intros; rewrite A2, B2, He; auto|].
    assert (Hd : forall j q, (q + S j = Q)%nat -> forall r, (r < wd (S q))%nat -> D1 q r = D2 q r).
    { induction j as [|j IH]; intros q Hq r Hr.
      - replace q with (Q - 1)%nat in * by lia. replace (S (Q - 1)) with Q in Hr by lia. rewrite A4, B4 by auto.
        f_equal. destruct (Nat.eqb_spec o 1) as [->|]; [rewrite He by lia; auto|]. f_equal. apply sumn_ext. intros i Hi. rewrite He; auto.
      - rewrite A5, B5 by (auto; lia). f_equal. apply sumn_ext. intros i Hi. rewrite A3, B3 by lia.
        rewrite (IH (S q)) by (auto; lia). reflexivity. }
    intros q r c Hq Hr Hc. rewrite A3, B3 by auto. rewrite (Hd (Q - S q)%nat q) by (auto; lia). reflexivity.
  Qed.
End Formulas.

Section Backprop.
  Variable solve : list rvec -> list rvec -> option (list rvec).
  #[local] Hint Extern 0 (Num R) => exact (RNum solve) : typeclass_instances.
  Notation net := (net R).
  Notation layer := (layer R).
  Notation val := (val R).

  (** component r of a target, an output or an error *)
  Definition comp (v : val) (r : nat) : R := match v with VNum a => a | VArr l => nth r l 0 end.
  (** the learning rate asked for, or one over the square root of the number of inputs of the layer *)
  Definition rate_of (mu : muarg R) (wd : nat) : R := match mu with MuNum a => a | _ => / sqrt (INR wd) end.

  Lemma inv_sqrt_R m sigma : inv_sqrt (T := R) m = Ok sigma -> sigma = / sqrt (INR m).
  Proof.
    unfold inv_sqrt. destruct (Nat.eqb_spec m 0) as [|Hm]; [discriminate|]. intros E.
    assert (E' : Rpowf (IZR (Z.of_nat m)) (Q2R (-1 # 2)) = sigma) by (injection E as E; exact E). subst sigma. rewrite <- INR_IZR_INZ.
    assert (Hp : 0 < INR m) by (apply lt_0_INR; lia). unfold Rpowf. destruct (Req_EM_T (INR m) 0); [lra|].
    replace (Q2R (-1 # 2)) with (- / 2) by (unfold Q2R; simpl; lra). rewrite Rpower_Ropp, Rpower_sqrt; auto.
  Qed.
  Lemma new_layers_statics rng f mu : forall sizes i k (ls : list layer), new_layers rng i sizes k f mu = Ok ls ->
    map (fun l => (l_mu l, l_f l)) ls = map (fun q => (rate_of mu (width k sizes q), f)) (seq 0 (length sizes)).
  Proof.
    induction sizes as [|s sizes IH]; intros i k ls H; cbn [new_layers] in H.
    - injection H as <-. reflexivity.
    - unfold new_layer in H. destruct (inv_sqrt k) as [sigma|] eqn:Es; [|discriminate]. cbn [rbind] in H.
      destruct (new_layers rng (S i) sizes s f mu) as [ls'|] eqn:E; [|discriminate]. cbn [rmap] in H.
      apply (f_equal (fun r => match r with Ok a => a | Err _ => [] end)) in H. cbv beta iota in H. subst ls.
      cbn [map length seq l_mu l_f]. f_equal.
      + f_equal. destruct mu; cbn [rate_of]; auto; unfold width; cbn [nth]; apply inv_sqrt_R; auto.
      + rewrite <- seq_shift, map_map. rewrite (IH _ _ _ E). apply map_ext. intros q. reflexivity.
  Qed.
  Lemma net_of_statics sizes k o f mu (n : net) : net_of sizes k o f mu n ->
    statics n = (rate_of mu (width k sizes (length sizes)), map (fun q => (rate_of mu (width k sizes q), f)) (seq 0 (length sizes))).
  Proof.
    induction 1 as [rng1 rng n Hr E|n p H IH]; [|rewrite mexec_statics; auto].
    unfold new_net in E. destruct (rev sizes) as [|la rest] eqn:Er; [discriminate|].
    destruct (inv_sqrt la) as [sigma|] eqn:Es; [|discriminate]. cbn [rbind] in E.
    destruct (match mu with MuAuto => _ | MuNum a => _ | MuBad => _ end) as [m|] eqn:Em; [|discriminate]. cbn [rbind] in E.
    destruct (new_layers rng 1 sizes k f mu) as [ls|] eqn:El; [|discriminate]. cbn [rmap] in E.
    apply (f_equal (fun r => match r with Ok a => a | Err _ => n end)) in E. cbv beta iota in E. subst n.
    unfold statics. cbn [m_mu m_layers]. rewrite (new_layers_statics _ _ _ _ _ _ _ El). f_equal.
    unfold width. rewrite <- last_nth.
    assert (Hla : last sizes k = la) by (eapply rev_last; eauto). rewrite Hla.
    destruct mu; cbn [rate_of]; try discriminate; [|injection Em as ->; auto].
    injection Em as <-. apply inv_sqrt_R; auto.
  Qed.

  Lemma squash_act f z : act f z = squash f z.
  Proof. destruct f; [reflexivity|]. apply (C45_tanh_formula solve). Qed.
  Lemma slope_act f y : act_der f y = slope f y.
  Proof. destruct f; [reflexivity|]. unfold act_der, slope. change (1 - y ^ 2 = 1 - y * y). ring. Qed.

  Lemma lead_nth (v : rvec) c : nth c (1 :: v) 0 = lead (fun j => nth j v 0) c.
  Proof. destruct c; reflexivity. Qed.
  Lemma row_dot (row v : rvec) m : length v = m -> length row = (m + 1)%nat ->
    Rdot row (1 :: v) = nth 0 row 0 + sumn m (fun j => nth (S j) row 0 * nth j v 0).
  Proof.
    intros Hv Hr. destruct row as [|a row]; [simpl in Hr; lia|]. cbn [Rdot nth]. rewrite Rmult_1_r. f_equal.
    apply Rdot_sumn; simpl in Hr; lia.
  Qed.

  Definition dl : layer := mkLayer 0 0 [] [] [] Sigmoid.
  Lemma hidden_w_nth (n : net) q r c : hidden_w n q r c = ent (l_w (nth q (m_layers n) dl)) r c.
  Proof.
    unfold hidden_w. destruct (nth_error (m_layers n) q) as [l|] eqn:E.
    - rewrite (nth_error_nth _ _ _ E). reflexivity.
    - apply nth_error_None in E. rewrite nth_overflow by auto. unfold ent. cbn [l_w dl]. destruct r, c; reflexivity.
  Qed.

  Lemma act_at_S (ls : list layer) x q : (q < length ls)%nat ->
    act_at ls x (S q) = map (fun row => act (l_f (nth q ls dl)) (Rdot row (1 :: act_at ls x q))) (l_w (nth q ls dl)).
  Proof.
    intros Hq. unfold act_at.
    assert (E : firstn (S q) ls = firstn q ls ++ [nth q ls dl]).
    { clear x. revert q Hq; induction ls as [|l ls IH]; intros [|q] Hq; cbn [firstn nth app length] in *; try lia; auto.
      f_equal. apply IH; lia. }
    rewrite E, map_app, hidden_app. cbn [map hidden layer_par]. apply map_ext. intros row. f_equal. exact (sum_prod row (1 :: _)).
  Qed.

  (** C66: what predict then update do to every weight *)
  Theorem C66_learning_step : forall sizes n_input outputs f mu n x d,
    net_of sizes n_input outputs f mu n -> length x = n_input -> vlen d outputs ->
    let n' := learn n (x, d) in
    let wd := width n_input sizes in
    let Q := length sizes in
    exists y e,
      snd (net_predict x n) = Ok y /\ snd (net_update d (fst (net_predict x n))) = Ok e /\
      (forall r, (r < outputs)%nat -> comp y r = response (wd Q) (out_w n) (activity f wd (hidden_w n) (fun j => nth j x 0) Q) r) /\
      learning_step f wd Q outputs (fun q => rate_of mu (wd q)) (rate_of mu (wd Q)) (fun j => nth j x 0) (comp d)
        (hidden_w n) (out_w n) (hidden_w n') (out_w n') (comp e).
  Proof.
    intros sizes k o f mu n x d Hof Hx Hd n' wd Q.
    pose proof (net_of_statics _ _ _ _ _ _ Hof) as St. pose proof (net_reach_ok _ _ _ _ (net_of_reach _ _ _ _ _ _ Hof)) as H.
    pose proof H as (N1 & N2 & N3 & N4 & N5 & N6).
    destruct (C48_step_succeeds sizes k o n x d (net_of_reach _ _ _ _ _ _ Hof) Hx Hd) as (S1 & S2).
    exists (forward n x), (minus d (forward n x)). split; auto. split; auto.
    set (ls := m_layers n) in *. pose proof (ls_ok_len _ _ _ N4) as HQ. fold Q in HQ.
    apply pair_equal_spec in St as (Smu & Sls).
    assert (Hst : forall q, (q < Q)%nat -> l_mu (nth q ls dl) = rate_of mu (wd q) /\ l_f (nth q ls dl) = f).
    { intros q Hq. assert (E : nth q (map (fun l : layer => (l_mu l, l_f l)) ls) (0, Sigmoid) = (rate_of mu (wd q), f)).
      { unfold ls. rewrite Sls, (map_nth_lt _ _ _ 0%nat) by (rewrite seq_length; auto). rewrite seq_nth by auto. reflexivity. }
      rewrite (map_nth_lt _ _ _ dl) in E by lia. apply pair_equal_spec in E. auto. }
    assert (Hsh : forall q, (q < Q)%nat -> shape (wd (S q)) (wd q + 1) (l_w (nth q ls dl))).
    { intros q Hq. destruct (ls_ok_nth sizes ls k q dl N4 ltac:(lia)) as (_ & Hm). exact Hm. }
    set (a := activity f wd (hidden_w n) (fun j => nth j x 0)).
    assert (Ha : forall q, (q <= Q)%nat -> length (act_at ls x q) = wd q /\ forall r, (r < wd q)%nat -> nth r (act_at ls x q) 0 = a q r).
    { induction q as [|q IH]; intros Hq.
      - split; [unfold act_at; cbn [firstn map hidden]; rewrite Hx; reflexivity|reflexivity].
      - destruct (IH ltac:(lia)) as (I1 & I2). destruct (Hsh q ltac:(lia)) as (Hl & Hrow). rewrite act_at_S by lia. split; [rewrite map_length; auto|].
        intros r Hr. rewrite (map_nth_lt _ _ _ ([] : rvec)) by lia. destruct (Hst q ltac:(lia)) as (_ & ->).
        change (a (S q) r) with (squash f (hidden_w n q r 0%nat + sumn (wd q) (fun j => hidden_w n q r (S j) * a q j))).
        rewrite squash_act. f_equal. rewrite (row_dot _ _ (wd q)) by (auto; apply (shape_row (wd (S q))); auto; apply Hsh; lia).
        rewrite hidden_w_nth. unfold ent. f_equal. apply sumn_ext. intros j Hj. rewrite hidden_w_nth, I2 by auto. reflexivity. }
    destruct (Ha Q (le_n Q)) as (HaL & HaQ).
    assert (Hlast : last sizes 0%nat = wd Q).
    { unfold wd, width, Q. rewrite <- last_nth. destruct sizes; [contradiction|apply last_indep]. }
    assert (HQ1 : (0 < Q)%nat) by (unfold Q; destruct sizes; [contradiction|simpl; lia]).
    assert (Hfw : forward n x = match m_w n with W1 w => VNum (Rdot w (1 :: act_at ls x Q)) | W2 W => VArr (map (fun row => Rdot row (1 :: act_at ls x Q)) W) end).
    { unfold forward. fold ls. assert (Ea : hidden (map layer_par ls) x = act_at ls x Q) by (unfold act_at; rewrite <- HQ, firstn_all; reflexivity).
      rewrite Ea. destruct (m_w n); auto. f_equal. apply map_ext. intros row. exact (sum_prod row (1 :: _)). }
    assert (Hresp : forall r, (r < o)%nat -> comp (forward n x) r = response (wd Q) (out_w n) (a Q) r).
    { intros r Hr. rewrite Hfw. unfold response, out_w. rewrite Hlast in N6. destruct (m_w n) as [w|W].
      - destruct N6 as (-> & Hw). replace r with 0%nat by lia. cbn [comp]. rewrite (row_dot _ _ (wd Q)) by auto. f_equal.
        apply sumn_ext. intros j Hj. rewrite HaQ; auto.
      - destruct N6 as (_ & HW). cbn [comp]. rewrite (map_nth_lt _ _ _ ([] : rvec)) by (destruct HW; lia).
        rewrite (row_dot _ _ (wd Q)) by (auto; apply (shape_row o); auto). unfold ent. f_equal. apply sumn_ext. intros j Hj. rewrite HaQ; auto. }
    split; [exact Hresp|].
    set (e := minus d (forward n x)) in *.
    assert (Hvl : vlen (forward n x) o) by (destruct (net_predict_ok sizes k o x n H Hx) as (_ & _ & P3 & _); auto).
    assert (Hev : vlen e o) by (destruct (val_sub_minus o d (forward n x) Hd Hvl); auto).
    assert (Hec : forall r, (r < o)%nat -> comp e r = comp d r - response (wd Q) (out_w n) (a Q) r).
    { intros r Hr. rewrite <- Hresp by auto. unfold e. destruct d as [d0|dv], (forward n x) as [y0|yv]; cbn [vlen] in Hd, Hvl;
        try (destruct Hd; congruence); try (destruct Hvl; congruence); [reflexivity|].
      cbn [minus comp]. apply (map2_nth Rminus dv yv r 0 0 0); lia. }
    destruct (learn_state sizes k o n x d dl H Hx Hd) as (w' & wold & ls' & del & Eo & Ew & El & Hl' & Hq). fold ls e in Eo, Hq, Hl'. rewrite HQ in *.
    fold n' in Ew, El.
    exists (fun q r => nth r (nth q del []) 0). fold a.
    assert (Hlead : forall q c, (q <= Q)%nat -> (c <= wd q)%nat -> nth c (1 :: act_at ls x q) 0 = lead (a q) c).
    { intros q c Hq1 Hc. destruct (Ha q Hq1) as (_ & Hh). rewrite lead_nth. destruct c as [|c]; cbn [lead]; auto. }
    split; [exact Hec|].
    split; [|split; [|split]].
    - intros r c Hr Hc. rewrite <- (Hlead Q c) by auto. rewrite Smu in Eo. fold wd in Eo. fold Q in Eo. rewrite Hlast in N6. unfold out_w. rewrite Ew.
      destruct (m_w n) as [w|W].
      + destruct N6 as (-> & Hw). destruct e as [e0|]; [|destruct Hev; contradiction]. cbn [out_step rbind] in Eo. unfold iadd1 in Eo. rewrite map_length in Eo.
        replace (Nat.eqb (length (n1 :: act_at ls x Q)) (length w)) with true in Eo by (symmetry; apply Nat.eqb_eq; simpl; lia).
        cbn [rmap] in Eo. apply (f_equal (fun r => match r with Ok (w1, _) => w1 | Err _ => W1 [] end)) in Eo. cbv beta iota in Eo. rewrite <- Eo.
        rewrite (map2_nth nadd w _ c 0 0 0) by (rewrite ?map_length; simpl; lia).
        rewrite (map_nth_lt _ _ _ 0) by (simpl; lia). reflexivity.
      + destruct N6 as (Ho & HW). destruct e as [|ev]; [simpl in Hev; contradiction|]. destruct Hev as (_ & Hev). cbn [out_step val_list] in Eo.
        rewrite iadd2_same in Eo by (rewrite outer_len; destruct HW; lia).
        cbn [rmap] in Eo. apply (f_equal (fun r => match r with Ok (w1, _) => w1 | Err _ => W1 [] end)) in Eo. cbv beta iota in Eo. rewrite <- Eo.
        rewrite (step_ent solve o (wd Q + 1)) by (simpl; auto; lia). cbn [comp]. change (@n1 R (RNum solve)) with 1. ring.
    - intros q r c Hq1 Hr Hc. rewrite !hidden_w_nth. rewrite El. fold ls. destruct (Hq q Hq1) as (_ & Q2 & Q3). rewrite Q3.
      destruct (Ha q ltac:(lia)) as (HL & _). destruct (Hsh q Hq1) as (Hlw & _).
      rewrite (step_ent solve (wd (S q)) (wd q + 1)) by (try apply Hsh; simpl; auto; lia). rewrite <- (Hlead q c) by lia.
      destruct (Hst q Hq1) as (-> & _). change (@n1 R (RNum solve)) with 1. ring.
    - intros r Hr. destruct (Hq (Q - 1)%nat ltac:(lia)) as (Q1 & Q2 & _).
      unfold from_next in Q1. replace (S (Q - 1) =? Q)%nat with true in Q1 by (symmetry; apply Nat.eqb_eq; lia). cbn [fst snd] in Q1.
      destruct (Hst (Q - 1)%nat ltac:(lia)) as (_ & Ef). destruct (Hsh (Q - 1)%nat ltac:(lia)) as (Hlw & _).
      replace (S (Q - 1)) with Q in * by lia. rewrite Hlast in N6. unfold out_w.
      destruct (m_w n) as [w|W].
      + destruct N6 as (-> & Hw). cbn [Nat.eqb]. destruct e as [e0|]; [|destruct Hev; contradiction]. cbn [out_step rbind] in Eo.
        destruct (iadd1 w _) as [w1|]; [|discriminate]. cbn [rmap] in Eo.
        apply (f_equal (fun r => match r with Ok (_, w1) => w1 | Err _ => W1 [] end)) in Eo. cbv beta iota in Eo. subst wold.
        cbn [layer_error mul_val rbind l_y l_f] in Q1. unfold bc_mul in Q1. rewrite bc_same in Q1 by (rewrite !map_length; destruct w; simpl in *; lia).
        apply (f_equal (fun r => match r with Ok v => v | Err _ => [] end)) in Q1. cbv beta iota in Q1. rewrite <- Q1.
        rewrite (map2_nth nmul _ _ r 0 0 0) by (rewrite ?map_length; destruct w; simpl in *; lia).
        rewrite (map_nth_lt _ _ _ 0) by (rewrite map_length; lia). rewrite (map_nth_lt _ _ _ 0) by lia. rewrite Ef, slope_act, HaQ by auto.
        destruct w as [|w0 w]; [simpl in Hw; lia|]. cbn [comp tl nth]. change (@nmul R (RNum solve)) with Rmult. ring.
      + destruct N6 as (Ho & HW). replace (o =? 1)%nat with false by (symmetry; apply Nat.eqb_neq; auto).
        destruct e as [|ev]; [simpl in Hev; contradiction|]. destruct Hev as (_ & Hev). cbn [out_step val_list] in Eo.
        destruct (iadd2 W _) as [w1|]; [|discriminate]. cbn [rmap] in Eo.
        apply (f_equal (fun r => match r with Ok (_, w1) => w1 | Err _ => W1 [] end)) in Eo. cbv beta iota in Eo. subst wold.
        cbn [layer_error l_y l_f l_w] in Q1. unfold vmdot, bc_mul in Q1. pose proof HW as (HWl & _).
        replace (length ev =? length (map (@tl R) W))%nat with true in Q1 by (symmetry; apply Nat.eqb_eq; rewrite map_length; lia). cbn [rbind] in Q1.
        rewrite bc_same in Q1 by (rewrite !map_length, seq_length; lia).
        apply (f_equal (fun r => match r with Ok v => v | Err _ => [] end)) in Q1. cbv beta iota in Q1. rewrite <- Q1.
        rewrite (map2_nth nmul _ _ r 0 0 0) by (rewrite ?map_length, ?seq_length; lia).
        rewrite (map_nth_lt _ _ _ 0) by lia. rewrite (map_nth_lt _ _ _ 0%nat) by (rewrite seq_length; lia). rewrite seq_nth by lia.
        rewrite Ef, slope_act, HaQ by auto. change (@nmul R (RNum solve)) with Rmult. change (@nsub R (RNum solve)) with Rminus. change (@n1 R (RNum solve)) with 1.
        rewrite Rmult_assoc. f_equal. f_equal. change (@ndot R (RNum solve)) with Rdot.
        rewrite (Rdot_sumn o) by (auto; rewrite (column_len solve), map_length; auto).
        apply sumn_ext. intros i Hi. cbn [comp]. f_equal. rewrite (column_nth solve) by (rewrite map_length; lia).
        unfold ent. rewrite (map_nth_lt _ _ _ ([] : rvec)) by lia.
        pose proof (shape_row _ _ _ _ HW Hi). destruct (nth i W []); [simpl in *; lia|]. reflexivity.
    - intros q r Hq1 Hr. destruct (Hq q ltac:(lia)) as (Q1 & Q2 & _).
      unfold from_next in Q1. replace (S q =? Q)%nat with false in Q1 by (symmetry; apply Nat.eqb_neq; lia). cbn [fst snd] in Q1.
      destruct (Hst q ltac:(lia)) as (_ & Ef). destruct (Hsh q ltac:(lia)) as (Hlw & _).
      destruct (Hq (S q) ltac:(lia)) as (_ & Q2' & Q3'). pose proof (Hsh (S q) ltac:(lia)) as Hs'. pose proof Hs' as (Hlw' & _).
      destruct (Ha (S q) ltac:(lia)) as (HL' & HA').
      assert (Hs2 : shape (wd (S (S q))) (wd (S q) + 1) (l_w (nth (S q) ls' dl))).
      { rewrite Q3'. apply map2m_shape; auto. apply mscale_shape. 
        replace (wd (S (S q))) with (length (nth (S q) del [])) by lia.
        replace (wd (S q) + 1)%nat with (length (n1 :: act_at ls x (S q))) by (simpl; lia). apply outer_shape. }
      cbn [layer_error l_y l_f l_w] in Q1. unfold vmdot, bc_mul in Q1. pose proof Hs2 as (Hs2l & _).
      replace (length (nth (S q) del []) =? length (map (@tl R) (l_w (nth (S q) ls' dl))))%nat with true in Q1
        by (symmetry; apply Nat.eqb_eq; rewrite map_length; lia). cbn [rbind] in Q1.
      rewrite bc_same in Q1 by (rewrite !map_length, seq_length; lia).
      apply (f_equal (fun r => match r with Ok v => v | Err _ => [] end)) in Q1. cbv beta iota in Q1. rewrite <- Q1.
      rewrite (map2_nth nmul _ _ r 0 0 0) by (rewrite ?map_length, ?seq_length; lia).
      rewrite (map_nth_lt _ _ _ 0) by lia. rewrite (map_nth_lt _ _ _ 0%nat) by (rewrite seq_length; lia). rewrite seq_nth by lia.
      rewrite Ef, slope_act, HA' by auto. change (@nmul R (RNum solve)) with Rmult. change (@nsub R (RNum solve)) with Rminus. change (@n1 R (RNum solve)) with 1.
      f_equal. change (@ndot R (RNum solve)) with Rdot.
      rewrite (Rdot_sumn (wd (S (S q)))) by (rewrite ?(column_len solve), ?map_length; lia).
      apply sumn_ext. intros i Hi. f_equal. rewrite (column_nth solve) by (rewrite map_length; lia).
      rewrite hidden_w_nth, El. unfold ent. rewrite (map_nth_lt _ _ _ ([] : rvec)) by lia.
      pose proof (shape_row _ _ _ _ Hs2 Hi). destruct (nth i (l_w (nth (S q) ls' dl)) []); [simpl in *; lia|]. reflexivity.
  Qed.

  (** the hypotheses are met by the two networks used elsewhere: two hidden layers and one output, one hidden
      layer and two outputs *)
  Example C66_hypotheses : net_of [1; 1]%nat 1 1 Sigmoid (MuNum 1) w_deep /\ net_of [1]%nat 1 2 Sigmoid (MuNum 1) w_two /\
    vlen (VNum 1) 1 /\ vlen (VArr [1; 0]) 2.
  Proof.
    split; [apply (made _ _ _ _ _ w_rng1 w_rng); [apply w_rngs_ok|reflexivity]|].
    split; [apply (made _ _ _ _ _ w_rng1 w_rng); [apply w_rngs_ok|reflexivity]|].
    split; [reflexivity|split; [discriminate|reflexivity]].
  Qed.
End Backprop.
