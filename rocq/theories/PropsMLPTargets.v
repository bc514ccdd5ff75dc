(** C85: NetworkMLP.update with targets of any shape, after a predict; any arithmetic. *)
From Coq Require Import QArith.
From Verif Require Import Py Num NumQ Numpy Spec Mlp PropsMLP PropsRun.
Open Scope nat_scope.

Section S.
  Context {T : Type} {NT : Num T}.
  Notation vec := (list T).
  Notation net := (net T).
  Notation layer := (layer T).
  Notation val := (val T).

  (** ** Specification *)
  (** [stands_for outputs d d']: the target d means the documented target d' (a number for one output, else one number per output) *)
  Definition stands_for (outputs : nat) (d d' : val) : Prop :=
    (outputs = 1 /\ exists a, d = VArr [a] /\ d' = VNum a) \/
    (outputs <> 1 /\ exists a, (d = VNum a \/ d = VArr [a]) /\ d' = VArr (repeat a outputs)).

  Lemma bc_single_l {A B C} (g : A -> B -> C) a v : bc g [a] v = Ok (map (g a) v).
  Proof. unfold bc. destruct v as [|b [|c v]]; reflexivity. Qed.
  Lemma bc_single_r {A B C} (g : A -> B -> C) u b : bc g u [b] = Ok (map (fun a => g a b) u).
  Proof. unfold bc. destruct u as [|a [|c u]]; reflexivity. Qed.
  Lemma map2_repeat {A B C} (g : A -> B -> C) a : forall v k, length v = k -> map2 g (repeat a k) v = map (g a) v.
  Proof. induction v as [|b v IH]; intros k <-; [reflexivity|]. cbn. rewrite IH; reflexivity. Qed.

  Lemma layer_update_single w e (l : layer) : layer_update (W1 w) (VArr [e]) l = layer_update (W1 w) (VNum e) l.
  Proof. unfold layer_update, layer_error, mul_val, bc_mul. rewrite bc_single_r. reflexivity. Qed.
  Lemma update_layers_single w e : forall ls : list layer, ls <> [] -> update_layers ls (W1 w) (VArr [e]) = update_layers ls (W1 w) (VNum e).
  Proof.
    induction ls as [|l [|l2 ls] IH]; intros H; [contradiction| |].
    - cbn [update_layers]. rewrite layer_update_single. reflexivity.
    - change (update_layers (l :: l2 :: ls) (W1 w) (VArr [e])) with
        (match update_layers (l2 :: ls) (W1 w) (VArr [e]) with
         | (ls'', Err x) => (l :: ls'', Err x) | (ls'', Ok (w', e')) => let (l', r) := layer_update w' e' l in (l' :: ls'', r) end).
      rewrite IH by discriminate. reflexivity.
  Qed.

  Lemma ls_nonempty sizes k (ls : list layer) : sizes <> [] -> ls_ok k sizes ls -> ls <> [].
  Proof. intros H H1 ->. destruct sizes; [contradiction|exact H1]. Qed.

  (** *** A one-element array counts as its element, a number (or a one-element array) counts for all outputs *)
  Theorem C85_accepted : forall sizes n_input outputs n x d d', net_reach sizes n_input outputs n -> length x = n_input ->
    stands_for outputs d d' ->
    let n' := fst (net_predict x n) in
    fst (net_update d n') = fst (net_update d' n') /\
    exists e e', snd (net_update d n') = Ok e /\ snd (net_update d' n') = Ok e' /\ val_list e = val_list e'.
  Proof.
    intros sizes k o n x d d' H Hx Hd n'. pose proof (net_reach_ok _ _ _ _ H) as Hn.
    destruct (net_predict_ok sizes k o x n Hn Hx) as (_ & P2 & _ & _). fold n' in P2.
    pose proof (net_predict_inv _ _ _ x n Hn) as Hn'. fold n' in Hn'.
    destruct Hd as [(-> & a & -> & ->)|(Ho & a & Hd & ->)].
    - destruct (net_update_ok sizes k 1 (VNum a) n' Hn' P2 eq_refl) as (U1 & _).
      destruct Hn' as (_ & _ & N3 & N4 & _ & N6). destruct P2 as (_ & Hy). unfold net_update in U1 |- *.
      destruct (m_y n') as [b|yv]; [|destruct Hy as (Hy & _); congruence]. cbn [val_sub map] in *.
      destruct (m_w n') as [w|W]; [|destruct N6 as (N6 & _); congruence]. cbn [out_step rbind vscale map] in *.
      unfold bc_mul. rewrite bc_single_l. cbn [rbind].
      destruct (iadd1 w _) as [w'|] eqn:E; cbn [rmap] in *; [|discriminate].
      rewrite update_layers_single by (exact (ls_nonempty _ _ _ N3 N4)).
      destruct (update_layers (m_layers n') (W1 (tl w)) (VNum (nsub a b))) as [ls [[w2 e2]|ex]]; cbn [fst snd rmap] in *; [|discriminate].
      split; [reflexivity|]. do 2 eexists. split; [reflexivity|]. split; [reflexivity|]. reflexivity.
    - destruct (net_update_ok sizes k o (VArr (repeat a o)) n' Hn' P2 (conj Ho (repeat_length _ _))) as (U1 & _).
      destruct P2 as (_ & Hy). unfold net_update in *. destruct (m_y n') as [b|yv] eqn:Ey; [cbn in Hy; contradiction|]. destruct Hy as (_ & Hy).
      assert (E : val_sub d (VArr yv) = val_sub (VArr (repeat a o)) (VArr yv)).
      { cbn [val_sub]. unfold bc_sub. rewrite bc_same by (rewrite repeat_length; congruence). rewrite map2_repeat by exact Hy.
        destruct Hd as [->| ->]; cbn [val_sub]; [reflexivity|]. unfold bc_sub. rewrite bc_single_l. reflexivity. }
      rewrite E. split; [reflexivity|]. rewrite U1. do 2 eexists. split; [reflexivity|]. split; [reflexivity|]. reflexivity.
  Qed.

  (** *** Other lengths are rejected.  Several outputs: nothing is changed.  One output: nothing is changed unless the
      length is that of the output weights; then the output weights are already overwritten when ValueError is raised. *)
  Theorem C85_rejected : forall sizes n_input outputs n x v, net_reach sizes n_input outputs n -> length x = n_input ->
    length v <> 1 -> length v <> outputs ->
    let n' := fst (net_predict x n) in
    (outputs = 1 -> length v <> last sizes 0 + 1) ->
    net_update (VArr v) n' = (n', Err ValueError).
  Proof.
    intros sizes k o n x v H Hx H1 H2 n' H3. pose proof (net_reach_ok _ _ _ _ H) as Hn.
    destruct (net_predict_ok sizes k o x n Hn Hx) as (_ & P2 & _ & _). fold n' in P2.
    pose proof (net_predict_inv _ _ _ x n Hn) as Hn'. fold n' in Hn'.
    destruct Hn' as (_ & _ & N3 & N4 & N5 & N6). destruct P2 as (_ & Hy). unfold net_update.
    pose proof (starts_one_len _ _ N5) as Hl.
    destruct (m_w n') as [w|W].
    - destruct N6 as (-> & N6). destruct (m_y n') as [b|yv]; [|destruct Hy as (Hy & _); congruence]. cbn [val_sub out_step].
      unfold bc_mul, bc. destruct (Nat.eqb_spec (length (vscale (m_mu n') (map (fun a => nsub a b) v))) (length (m_x n'))) as [E|E].
      + exfalso. unfold vscale in E. rewrite !map_length in E. specialize (H3 eq_refl). lia.
      + destruct v as [|v0 [|v1 v]]; [|cbn in H1; lia|]; cbn [map vscale].
        * destruct (m_x n') as [|x0 [|x1 xs]]; [cbn in Hl; lia| |reflexivity]. cbn in Hl. exfalso.
          assert (Hs : last sizes 0 = 0) by lia.
          (* the last hidden layer has at least one node *)
          clear -H Hs. induction H as [rng1 rng f mu n Hr E|n p Hn IH]; [|exact IH].
          unfold new_net in E. destruct (rev sizes) as [|s r] eqn:Er; [discriminate|]. rewrite (rev_last sizes s r 0 Er) in Hs. subst s. discriminate.
        * destruct (m_x n') as [|x0 [|x1 xs]]; [cbn in Hl; lia| |reflexivity]. cbn in Hl. exfalso.
          assert (Hs : last sizes 0 = 0) by lia.
          clear -H Hs. induction H as [rng1 rng f mu n Hr E|n p Hn IH]; [|exact IH].
          unfold new_net in E. destruct (rev sizes) as [|s r] eqn:Er; [discriminate|]. rewrite (rev_last sizes s r 0 Er) in Hs. subst s. discriminate.
    - destruct N6 as (N6 & _). destruct (m_y n') as [b|yv]; [cbn in Hy; contradiction|]. destruct Hy as (_ & Hy). cbn [val_sub].
      unfold bc_sub, bc. destruct (Nat.eqb_spec (length v) (length yv)) as [E|E]; [congruence|].
      destruct v as [|v0 [|v1 v]]; [|cbn in H1; lia|]; destruct yv as [|y0 [|y1 yv]]; try reflexivity; cbn in *; try congruence; try lia.
  Qed.

  Theorem C85_rejected_too_late : forall sizes n_input n x v, net_reach sizes n_input 1 n -> length x = n_input ->
    length v = last sizes 0 + 1 ->
    let n' := fst (net_predict x n) in let n2 := fst (net_update (VArr v) n') in
    snd (net_update (VArr v) n') = Err ValueError /\ m_layers n2 = m_layers n' /\
    exists y w, forward n x = VNum y /\ m_w n = W1 w /\
      m_w n2 = W1 (map2 nadd w (map2 (fun a xi => nmul (nmul (m_mu n) (nsub a y)) xi) v (n1 :: hidden (map layer_par (m_layers n)) x))).
  Proof.
    intros sizes k n x v H Hx Hv n' n2. pose proof (net_reach_ok _ _ _ _ H) as Hn.
    assert (Hs0 : last sizes 0 <> 0).
    { clear -H. induction H as [rng1 rng f mu n Hr E|n p Hn IH]; [|exact IH]. intros Hs.
      unfold new_net in E. destruct (rev sizes) as [|s r] eqn:Er; [discriminate|]. rewrite (rev_last sizes s r 0 Er) in Hs. subst s. discriminate. }
    destruct (net_predict_ok sizes k 1 x n Hn Hx) as (P1 & P2 & P3 & P4). fold n' in P2, P4.
    pose proof (net_predict_params x n) as HP. fold n' in HP.
    assert (Hmx : m_x n' = n1 :: hidden (map layer_par (m_layers n)) x).
    { destruct Hn as (_ & _ & N3 & N4 & N5 & N6). unfold n', net_predict.
      destruct (predict_layers_ok sizes (m_layers n) k x N4 Hx) as (Q1 & Q2 & _).
      destruct (predict_layers (m_layers n) x) as [ls r]. cbn [snd] in Q1. subst r.
      pose proof (starts_one_len _ _ N5) as Hl. replace (length (m_x n) - 1) with (last sizes 0) by lia.
      rewrite (assign_tail_eq _ _ _ N5) by (rewrite Q2; destruct sizes as [|s0 sizes]; [contradiction|]; apply last_indep).
      destruct (m_w n) as [w|W]; [|reflexivity]. unfold vdot.
      destruct (length w =? _); reflexivity. }
    pose proof (net_predict_inv _ _ _ x n Hn) as Hn'. fold n' in Hn'.
    destruct Hn' as (_ & _ & N3 & N4 & N5 & N6). destruct P2 as (Hly & Hy).
    pose proof (starts_one_len _ _ N5) as Hl.
    unfold params in HP. injection HP as EM _ _ EW _.
    destruct (m_w n') as [w|W] eqn:Ew; [|destruct N6; congruence]. destruct N6 as (_ & N6).
    destruct (m_y n') as [y|yv] eqn:Ey; [|destruct Hy; congruence].
    (* the last hidden layer *)
    assert (Hlast : exists ls l, m_layers n' = ls ++ [l] /\ length (l_y l) = last sizes 0 /\ length (l_w l) = last sizes 0).
    { clear -N3 N4 Hly. revert N4 Hly. generalize (m_layers n'). generalize k. clear k. intros k ls0. revert k ls0 N3.
      induction sizes as [|s sizes IH]; intros k ls0 N3 N4 Hly; [contradiction|]. destruct ls0 as [|l ls0]; [contradiction|].
      cbn [ls_ok] in N4. destruct N4 as (_ & (A & _) & _ & N4). assert (B : length (l_y l) = s /\ Forall2 (fun s0 l0 => length (l_y l0) = s0) sizes ls0) by (inversion Hly; auto). destruct B as (B & Hly').
      destruct sizes as [|s2 sizes].
      - destruct ls0; [|contradiction]. exists [], l. auto.
      - destruct (IH s ls0 ltac:(discriminate) N4 Hly') as (ls & l2 & -> & C & D). exists (l :: ls), l2. split; [reflexivity|]. split; assumption. }
    destruct Hlast as (ls & l & El & Hlyl & Hlwl).
    assert (HE : net_update (VArr v) n' = (mkNet (m_mu n') (m_n n') (m_outputs n')
        (W1 (map2 nadd w (map2 (fun a xi => nmul (nmul (m_mu n') (nsub a y)) xi) v (m_x n')))) (m_x n') (m_y n') (m_layers n'), Err ValueError)).
    { unfold net_update. rewrite Ey, Ew. cbn [val_sub out_step]. unfold bc_mul.
      rewrite bc_same by (unfold vscale; rewrite !map_length; lia). cbn [rbind]. unfold iadd1.
      assert (Elen : length (map2 nmul (vscale (m_mu n') (map (fun a => nsub a y) v)) (m_x n')) = length w).
      { rewrite map2_len. unfold vscale. rewrite !map_length. lia. }
      rewrite Elen, Nat.eqb_refl. cbn [rmap].
      assert (Em : map2 nmul (vscale (m_mu n') (map (fun a => nsub a y) v)) (m_x n') = map2 (fun a xi => nmul (nmul (m_mu n') (nsub a y)) xi) v (m_x n')).
      { clear. generalize (m_x n'). induction v as [|a v IH]; intros [|b xs]; try reflexivity. cbn [vscale map map2]. f_equal. apply IH. }
      rewrite Em.
      assert (HU : layer_update (W1 (tl w)) (VArr (map (fun a => nsub a y) v)) l = (l, Err ValueError)).
      { unfold layer_update, layer_error, mul_val, bc_mul. set (u := map (act_der (l_f l)) (l_y l)). set (e := map (fun a => nsub a y) v).
        assert (Hu : length u = last sizes 0) by (unfold u; rewrite map_length; exact Hlyl).
        assert (He : length e = last sizes 0 + 1) by (unfold e; rewrite map_length; exact Hv).
        assert (Hw : length (tl w) = last sizes 0) by (destruct w; cbn in *; lia).
        destruct u as [|u0 [|u1 u]]; [cbn in Hu; lia| |].
        - rewrite bc_single_l. cbn [rbind]. cbn [length] in Hu.
          destruct (tl w) as [|w0 [|w1 tw]]; cbn [length] in Hw; try lia. rewrite bc_single_r.
          unfold iadd2. rewrite outer_len, !map_length, Hlwl, He, <- Hu. cbn [Nat.add Nat.eqb].
          destruct e as [|e0 [|e1 e]]; cbn [length] in He; try lia. reflexivity.
        - unfold bc at 1. destruct (Nat.eqb_spec (length (u0 :: u1 :: u)) (length e)) as [E|E]; [lia|].
          destruct e as [|e0 [|e1 e]]; cbn [length] in *; try lia. reflexivity. }
      rewrite El. pose proof (update_layers_last ls l (W1 (tl w)) (VArr (map (fun a => nsub a y) v))) as HL.
      rewrite HU in HL. cbn [fst snd] in HL. rewrite HL. reflexivity. }
    unfold n2. rewrite HE. cbn [fst snd m_layers m_w]. split; [reflexivity|]. split; [reflexivity|].
    exists y, w. split; [rewrite <- P4; reflexivity|]. split; [congruence|]. rewrite EM, Hmx. reflexivity.
  Qed.

  (** *** Before the first predict, a single number (or a one-element array) with several outputs: the code adds mu * a to
      every output weight and then raises ValueError; the hidden layers keep their weights. *)
  Theorem C85_before_predict : forall rng1 rng sizes n_input outputs f mu n a d,
    rngs_ok rng1 rng -> new_net rng1 rng sizes n_input outputs f mu = Ok n -> outputs <> 1 -> d = VNum a \/ d = VArr [a] ->
    let n2 := fst (net_update d n) in
    snd (net_update d n) = Err ValueError /\ m_layers n2 = m_layers n /\
    exists W, m_w n = W2 W /\ m_w n2 = W2 (map (map (fun w => nadd w (nmul (m_mu n) (nmul (nsub a n0) n1)))) W).
  Proof.
    intros rng1 rng sizes k o f mu n a d Hr E Ho Hd.
    pose proof (net_reach_ok _ _ _ _ (reach_net _ _ _ rng1 rng f mu n Hr E)) as (N1 & N2 & N3 & N4 & N5 & N6).
    assert (Hy : m_y n = VNum n0 /\ m_x n = ones (last sizes 0 + 1)).
    { unfold new_net in E. destruct (rev sizes) as [|s r] eqn:Er; [discriminate|]. rewrite (rev_last sizes s r 0 Er).
      destruct (inv_sqrt s) as [sigma|]; [|discriminate]. cbn [rbind] in E.
      destruct (match mu with MuAuto => _ | MuNum b => _ | MuBad => _ end) as [m|]; [|discriminate]. cbn [rbind] in E.
      destruct (new_layers rng 1 sizes k f mu) as [ls|]; [|discriminate]. injection E as <-. split; reflexivity. }
    clear E. destruct Hy as (Hy & Hx). destruct (m_w n) as [w|W] eqn:Ew; [destruct N6; contradiction|]. destruct N6 as (_ & N6).
    assert (HW : length W = o) by apply N6.
    assert (Hc : forall r, In r W -> length r = last sizes 0 + 1).
    { intros r HI. destruct N6 as (_ & N6). rewrite Forall_forall in N6. exact (N6 r HI). }
    assert (Hls : m_layers n <> []) by exact (ls_nonempty _ _ _ N3 N4).
    destruct (exists_last Hls) as (ls & l & El).
    assert (HE : net_update d n = (mkNet (m_mu n) (m_n n) (m_outputs n)
        (W2 (map (map (fun w => nadd w (nmul (m_mu n) (nmul (nsub a n0) n1)))) W)) (m_x n) (m_y n) (m_layers n), Err ValueError)).
    { unfold net_update. rewrite Hy, Ew.
      assert (Hs : exists e, val_sub d (VNum n0) = Ok e /\ val_list e = [nsub a n0] /\ (e = VNum (nsub a n0) \/ e = VArr [nsub a n0])).
      { destruct Hd as [->| ->]; eexists; (split; [reflexivity|]); split; auto. }
      destruct Hs as (e & -> & Hv & He). unfold out_step. rewrite Hv, Hx.
      assert (HI : iadd2 W (mscale (m_mu n) (outer [nsub a n0] (ones (last sizes 0 + 1)))) =
        Ok (map (map (fun w => nadd w (nmul (m_mu n) (nmul (nsub a n0) n1)))) W)).
      { unfold iadd2. cbn [outer map mscale length]. rewrite HW. destruct (Nat.eqb_spec 1 o); [congruence|]. f_equal.
        apply map_ext_in. intros r HI. specialize (Hc r HI). rewrite <- Hc. clear. unfold ones, vscale.
        induction r as [|b r IH]; [reflexivity|]. cbn [length repeat map map2]. f_equal. exact IH. }
      rewrite HI. cbn [rmap].
      assert (HU : layer_update (W2 (map (@tl T) W)) e l = (l, Err ValueError)).
      { unfold layer_update, layer_error. destruct He as [->| ->]; [reflexivity|]. unfold vmdot. rewrite map_length, HW. cbn [length].
        destruct (Nat.eqb_spec 1 o); [congruence|]. reflexivity. }
      rewrite El. pose proof (update_layers_last ls l (W2 (map (@tl T) W)) e) as HL. rewrite HU in HL. cbn [fst snd] in HL. rewrite HL. reflexivity. }
    intros n2. unfold n2. rewrite HE. cbn [fst snd m_layers m_w]. split; [reflexivity|]. split; [reflexivity|].
    exists W. split; reflexivity.
  Qed.
End S.

(** ** The hypotheses are met: a network with 2 inputs, 2 hidden nodes, and 1 or 2 outputs, over the rationals *)
Open Scope Q_scope.
Definition t_rng1 (s : Q) (k : nat) : list Q := repeat s k.
Definition t_rng (i : nat) (s : Q) (r c : nat) : list (list Q) := repeat (repeat s c) r.
Example C85_hypotheses : rngs_ok t_rng1 t_rng /\
  (exists n : net Q, new_net t_rng1 t_rng [2]%nat 2 1 Tanh (MuNum (1 # 4)) = Ok n /\ net_reach [2]%nat 2 1 n) /\
  (exists n : net Q, new_net t_rng1 t_rng [2]%nat 2 2 Tanh (MuNum (1 # 4)) = Ok n /\ net_reach [2]%nat 2 2 n) /\
  stands_for 1 (VArr [3]) (VNum 3) /\ stands_for 2 (VNum 3) (VArr [3; 3]) /\ stands_for 2 (VArr [3]) (VArr [3; 3]) /\
  length [1; 2; 3] = (last [2] 0 + 1)%nat.
Proof.
  assert (HR : rngs_ok t_rng1 t_rng).
  { split; [intros; apply repeat_length|]. intros i s r c. split; [apply repeat_length|]. unfold t_rng.
    apply Forall_forall. intros x Hx. apply repeat_spec in Hx. subst x. apply repeat_length. }
  split; [exact HR|].
  split; [eexists; split; [reflexivity|]; refine (reach_net [2]%nat 2 1 t_rng1 t_rng Tanh (MuNum (1 # 4)) _ HR _); reflexivity|].
  split; [eexists; split; [reflexivity|]; refine (reach_net [2]%nat 2 2 t_rng1 t_rng Tanh (MuNum (1 # 4)) _ HR _); reflexivity|].
  split; [left; split; [reflexivity|]; exists 3; split; reflexivity|].
  split; [right; split; [discriminate|]; exists 3; split; [left; reflexivity|reflexivity]|].
  split; [right; split; [discriminate|]; exists 3; split; [right; reflexivity|reflexivity]|].
  reflexivity.
Qed.
