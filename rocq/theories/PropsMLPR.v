(** Properties C45, C46 and the real-arithmetic part of C47: activations, gradients, reported MSE. *)
From Coq Require Import Reals Lra Psatz QArith Permutation.
From Verif Require Import Py Num Numpy StructProofs Spec RVec RMat Mlp PropsMLP.
Open Scope R_scope.

(** ** C45 *)
Section Act.
  Variable solve : list rvec -> list rvec -> option (list rvec).
  #[local] Hint Extern 0 (Num R) => exact (RNum solve) : typeclass_instances.

  Lemma act_sigmoid z : act Sigmoid z = 1 / (1 + exp (- z)).
  Proof. reflexivity. Qed.
  Lemma act_tanh z : act Tanh z = 2 / (1 + exp (- (2) * z)) - 1.
  Proof. reflexivity. Qed.

  Theorem C45_sigmoid_range : forall z : R, 0 < act Sigmoid z < 1.
  Proof.
    intros z. rewrite act_sigmoid. pose proof (exp_pos (- z)). split.
    - apply Rdiv_lt_0_compat; lra.
    - apply (Rmult_lt_reg_r (1 + exp (- z))); [lra|]. unfold Rdiv. rewrite Rmult_assoc, Rinv_l by lra. lra.
  Qed.
  Theorem C45_tanh_formula : forall z : R, act Tanh z = tanh z.
  Proof.
    intros z. rewrite act_tanh. unfold tanh, sinh, cosh.
    replace (- (2) * z) with (- z + - z) by ring. rewrite exp_plus, exp_Ropp. pose proof (exp_pos z) as H.
    assert (exp z * exp z + 1 <> 0) by nra. field. repeat split; nra.
  Qed.
  Theorem C45_tanh_range : forall z : R, -1 < act Tanh z < 1.
  Proof.
    intros z. rewrite act_tanh. pose proof (exp_pos (- (2) * z)) as H. set (q := exp (- (2) * z)) in *. split.
    - assert (0 < 2 / (1 + q)) by (apply Rdiv_lt_0_compat; lra). lra.
    - assert (2 / (1 + q) < 2); [|lra]. apply (Rmult_lt_reg_r (1 + q)); [lra|]. unfold Rdiv. rewrite Rmult_assoc, Rinv_l by lra. lra.
  Qed.
  (** der=True, fed with the output of the activation, is the derivative of the activation *)
  Lemma der_lin a z : derivable_pt_lim (fun t => a * t) z a.
  Proof.
    apply (derivable_pt_lim_ext (mult_real_fct a id)); [reflexivity|].
    replace a with (a * 1) at 2 by ring. apply derivable_pt_lim_scal, derivable_pt_lim_id.
  Qed.
  Lemma der_exp_lin a z : derivable_pt_lim (fun t => exp (a * t)) z (exp (a * z) * a).
  Proof.
    apply (derivable_pt_lim_ext (comp exp (fun t => a * t))); [reflexivity|].
    apply derivable_pt_lim_comp; [apply der_lin|apply derivable_pt_lim_exp].
  Qed.
  Theorem C45_derivative : forall f (z : R), derivable_pt_lim (act f) z (act_der f (act f z)).
  Proof.
    assert (Hq : forall a b z, derivable_pt_lim (fun t => b / (1 + exp (a * t))) z
        ((0 * (1 + exp (a * z)) - (0 + exp (a * z) * a) * b) / Rsqr (1 + exp (a * z)))).
    { intros a b z.
      assert (Hn : (fct_cte 1 + (fun t => exp (a * t)))%F z <> 0) by (unfold plus_fct, fct_cte; pose proof (exp_pos (a * z)); lra).
      exact (derivable_pt_lim_div _ _ z _ _ (derivable_pt_lim_const b z)
               (derivable_pt_lim_plus _ _ z _ _ (derivable_pt_lim_const 1 z) (der_exp_lin a z)) Hn). }
    intros f z. destruct f.
    - eapply derivable_pt_lim_ext; [|replace (act_der Sigmoid (act Sigmoid z)) with
        ((0 * (1 + exp (-1 * z)) - (0 + exp (-1 * z) * -1) * 1) / Rsqr (1 + exp (-1 * z))); [exact (Hq (-1) 1 z)|]].
      + intros t. cbv beta. rewrite act_sigmoid. repeat f_equal. ring.
      + change (act_der Sigmoid (act Sigmoid z)) with (act Sigmoid z * (1 - act Sigmoid z)). rewrite act_sigmoid. unfold Rsqr.
        replace (-1 * z) with (- z) by ring. pose proof (exp_pos (- z)). field. lra.
    - pose proof (derivable_pt_lim_minus _ _ z _ _ (Hq (- (2)) 2 z) (derivable_pt_lim_const 1 z)) as H.
      eapply derivable_pt_lim_ext; [|replace (act_der Tanh (act Tanh z)) with
        ((0 * (1 + exp (- (2) * z)) - (0 + exp (- (2) * z) * - (2)) * 2) / Rsqr (1 + exp (- (2) * z)) - 0); [exact H|]].
      + intros t. reflexivity.
      + change (act_der Tanh (act Tanh z)) with (1 - act Tanh z ^ 2). rewrite act_tanh. unfold Rsqr.
        pose proof (exp_pos (- (2) * z)). field. lra.
  Qed.
End Act.

(** ** C46 *)
Section Grad.
  Variable solve : list rvec -> list rvec -> option (list rvec).
  #[local] Hint Extern 0 (Num R) => exact (RNum solve) : typeclass_instances.
  Notation net := (net R).
  Notation layer := (layer R).
  Notation val := (val R).

  (** *** Specification: half the squared error, and networks with one weight replaced *)
  Definition loss (n : net) (x : rvec) (d : val) : R :=
    match d, forward n x with
    | VNum t, VNum y => (t - y) * (t - y) / 2
    | VArr t, VArr y => Rsum (map2 (fun a b => (a - b) * (a - b) / 2) t y)
    | _, _ => 0
    end.
  Definition set_entry (r c : nat) (t : R) (W : rmat) : rmat := set_nth r (set_nth c t (nth r W [])) W.
  Definition set_out (n : net) (w : wts R) : net := mkNet (m_mu n) (m_n n) (m_outputs n) w (m_x n) (m_y n) (m_layers n).
  Definition set_lw (l : layer) (W : rmat) : layer := mkLayer (l_mu l) (l_n l) W (l_x l) (l_y l) (l_f l).
  (** replace weight (r, c) of the hidden layer number q *)
  Definition set_hidden (n : net) (q r c : nat) (t : R) : net :=
    mkNet (m_mu n) (m_n n) (m_outputs n) (m_w n) (m_x n) (m_y n)
      (match nth_error (m_layers n) q with
       | Some l => set_nth q (set_lw l (set_entry r c t (l_w l))) (m_layers n)
       | None => m_layers n
       end).
  Definition hidden_w (n : net) (q r c : nat) : R :=
    match nth_error (m_layers n) q with Some l => ent (l_w l) r c | None => 0 end.
  Definition hidden_mu (n : net) (q : nat) : R :=
    match nth_error (m_layers n) q with Some l => l_mu l | None => 0 end.
  Definition out_w (n : net) (r c : nat) : R :=
    match m_w n with W1 w => nth c w 0 | W2 W => ent W r c end.
  Definition set_out_w (n : net) (r c : nat) (t : R) : net :=
    set_out n (match m_w n with W1 w => W1 (set_nth c t w) | W2 W => W2 (set_entry r c t W) end).

  (** *** Lemmas *)
  Lemma set_nth_length {A} (l : list A) : forall k v, length (set_nth k v l) = length l.
  Proof. induction l as [|a l IH]; intros [|k] v; simpl; auto. Qed.
  Lemma set_nth_nth {A} (l : list A) : forall k i v d, (k < length l)%nat ->
    nth i (set_nth k v l) d = if (i =? k)%nat then v else nth i l d.
  Proof.
    induction l as [|a l IH]; intros [|k] [|i] v d H; simpl in *; try lia; auto. apply IH; lia.
  Qed.
  Lemma set_nth_last {A} (l : list A) a b : set_nth (length l) b (l ++ [a]) = l ++ [b].
  Proof. induction l as [|c l IH]; simpl; auto. rewrite IH; reflexivity. Qed.
  Lemma Rdot_set u v c t : (c < length u)%nat -> length u = length v ->
    Rdot (set_nth c t u) v = Rdot u v + (t - nth c u 0) * nth c v 0.
  Proof.
    revert v c; induction u as [|a u IH]; intros [|b v] [|c] H E; simpl in *; try lia; [ring|].
    rewrite IH by lia. ring.
  Qed.
  Lemma Rdot_set_r u v c t : (c < length v)%nat -> length u = length v ->
    Rdot u (set_nth c t v) = Rdot u v + nth c u 0 * (t - nth c v 0).
  Proof. intros H E. rewrite Rdot_comm, Rdot_set, (Rdot_comm v u) by lia. ring. Qed.
  Lemma sum_prod u v : Rsum (map2 Rmult u v) = Rdot u v.
  Proof. revert v; induction u as [|a u IH]; intros [|b v]; simpl; auto. rewrite IH; reflexivity. Qed.
  Lemma map_set_nth {A B} (g : A -> B) (l : list A) : forall k v, map g (set_nth k v l) = set_nth k (g v) (map g l).
  Proof. induction l as [|a l IH]; intros [|k] v; simpl; auto. rewrite IH; reflexivity. Qed.

  Lemma der_affine a b z : derivable_pt_lim (fun t => a + b * (t - z)) z b.
  Proof.
    apply (derivable_pt_lim_ext (plus_fct (fct_cte (a - b * z)) (fun t => b * t))).
    - intros t. unfold plus_fct, fct_cte. ring.
    - replace b with (0 + b) at 2 by ring. apply derivable_pt_lim_plus; [apply derivable_pt_lim_const|apply der_lin].
  Qed.
  Lemma der_half_square (e : R) (phi : R -> R) z p : derivable_pt_lim phi z p ->
    derivable_pt_lim (fun t => (e - phi t) * (e - phi t) / 2) z (- ((e - phi z) * p)).
  Proof.
    intros H. assert (H1 : derivable_pt_lim (minus_fct (fct_cte e) phi) z (0 - p)) by (apply derivable_pt_lim_minus; [apply derivable_pt_lim_const|auto]).
    pose proof (derivable_pt_lim_mult _ _ _ _ _ H1 H1) as H2.
    pose proof (derivable_pt_lim_div_scal _ _ _ 2 H2) as H3.
    replace (- ((e - phi z) * p)) with (((0 - p) * (minus_fct (fct_cte e) phi) z + (minus_fct (fct_cte e) phi) z * (0 - p)) / 2); [exact H3|].
    unfold minus_fct, fct_cte. field.
  Qed.
  Lemma der_sumn m (f : nat -> R -> R) g z : (forall i, (i < m)%nat -> derivable_pt_lim (f i) z (g i)) ->
    derivable_pt_lim (fun t => sumn m (fun i => f i t)) z (sumn m g).
  Proof.
    induction m as [|m IH]; intros H; cbn [sumn]; [exact (derivable_pt_lim_const 0 z)|].
    exact (derivable_pt_lim_plus _ _ _ _ _ (IH (fun i Hi => H i ltac:(lia))) (H m ltac:(lia))).
  Qed.

  (** a node of the last hidden layer as a function of one of its weights *)
  Definition node (f : actf) (row v : rvec) (c : nat) (t : R) : R := act f (Rdot row v + nth c v 0 * (t - nth c row 0)).
  Lemma der_node f row v c : derivable_pt_lim (node f row v c) (nth c row 0)
    (act_der f (act f (Rdot row v)) * nth c v 0).
  Proof.
    unfold node.
    pose proof (derivable_pt_lim_comp _ (act f) _ _ _ (der_affine (Rdot row v) (nth c v 0) (nth c row 0))
      (C45_derivative solve f (Rdot row v + nth c v 0 * (nth c row 0 - nth c row 0)))) as H.
    rewrite (Rminus_diag_eq (nth c row 0) (nth c row 0) eq_refl), Rmult_0_r, Rplus_0_r in H.
    exact H.
  Qed.

  (** the network as the last hidden layer fed by the ones before *)
  Lemma hidden_app l1 l2 (x : rvec) : hidden (l1 ++ l2) x = hidden l2 (hidden l1 x).
  Proof. revert x; induction l1 as [|[[[? ?] ?] ?] l1 IH]; intros x; simpl; auto. Qed.
  Lemma predict_layers_last (ls : list layer) : forall (l : layer) (x : rvec), 
    match snd (predict_layers ls x) with
    | Err _ => True
    | Ok h => predict_layers (ls ++ [l]) x = (fst (predict_layers ls x) ++ [fst (layer_predict h l)], snd (layer_predict h l))
    end.
  Proof.
    induction ls as [|a ls IH]; intros l x; cbn [app predict_layers].
    - cbn [snd fst]. destruct (layer_predict x l) as [l' [y|e]]; reflexivity.
    - destruct (layer_predict x a) as [a' [y|e]]; [|exact I]. specialize (IH l y).
      destruct (predict_layers ls y) as [ls' [h|e]]; cbn [fst snd] in *; auto. rewrite IH. reflexivity.
  Qed.

  (** the network before and after one learning step, in terms of its last hidden layer *)
  Lemma split_last sizes k o n : net_ok sizes k o n -> exists ss s ls l, sizes = ss ++ [s] /\ m_layers n = ls ++ [l] /\
    length ls = length ss /\ ls_ok k ss ls /\ l_n l = last ss k /\ shape s (last ss k + 1) (l_w l) /\ starts_one (last ss k) (l_x l).
  Proof.
    intros (_ & _ & Hs & Hl & _). destruct (exists_last Hs) as (ss & s & E). subst sizes. clear Hs.
    remember (m_layers n) as ls0. clear Heqls0. exists ss, s. revert k ls0 Hl. induction ss as [|a ss IH]; intros k [|b ls0] H; cbn [app ls_ok] in H; try contradiction.
    - destruct H as (H1 & H2 & H3 & H4). destruct ls0; [|contradiction]. exists [], b. repeat split; auto. apply H2. apply H2.
    - destruct H as (H1 & H2 & H3 & H4). destruct (IH a ls0 H4) as (ls & l & _ & -> & H5 & H6 & H7 & H8 & H9).
      assert (El : last (a :: ss) k = last ss a) by (destruct ss; auto; exact (last_indep ss n0 k a)).
      exists (b :: ls), l. rewrite El. split; auto. split; auto. split; [simpl; lia|]. split; [simpl; auto|]. auto.
  Qed.

  Lemma update_layers_len (ls : list layer) w e : length (fst (update_layers ls w e)) = length ls.
  Proof.
    revert w e; induction ls as [|a ls IH]; intros w e; cbn [update_layers]; auto. specialize (IH w e).
    destruct (update_layers ls w e) as [ls' [[w' e']|x]]; cbn [fst] in *; [|simpl; lia].
    destruct (layer_update w' e' a); simpl; lia.
  Qed.
  Lemma learned_last sizes k o n x d : net_ok sizes k o n -> length x = k -> vlen d o ->
    forall ls l, m_layers n = ls ++ [l] ->
    let h := hidden (map layer_par ls) x in
    let ys := map (fun row => act (l_f l) (Rdot row (1 :: h))) (l_w l) in
    let l1 := mkLayer (l_mu l) (l_n l) (l_w l) (1 :: h) ys (l_f l) in
    forward n x = match m_w n with W1 w => VNum (Rdot w (1 :: ys)) | W2 W => VArr (map (fun row => Rdot row (1 :: ys)) W) end /\
    exists w' wold ls', out_step (m_mu n) (minus d (forward n x)) (1 :: ys) (m_w n) = Ok (w', wold) /\
      m_w (learn n (x, d)) = w' /\ m_layers (learn n (x, d)) = ls' ++ [fst (layer_update wold (minus d (forward n x)) l1)] /\
      length ls' = length ls.
  Proof.
    intros H Hx Hd ls l El h ys l1.
    destruct (split_last sizes k o n H) as (ss & s & ls0 & l0 & Es & El0 & Hll & Hok & Hn & Hsh & Hso).
    rewrite El in El0. apply app_inj_tail in El0 as (<- & <-).
    destruct (net_predict_ok sizes k o x n H Hx) as (P1 & P2 & P3 & P4).
    assert (Hf : forward n x = match m_w n with W1 w => VNum (Rdot w (1 :: ys)) | W2 W => VArr (map (fun row => Rdot row (1 :: ys)) W) end).
    { unfold forward. rewrite El, map_app, hidden_app. cbn [map hidden layer_par]. fold h.
      replace (map (fun row => act (l_f l) (nsum (map2 nmul row (n1 :: h)))) (l_w l)) with ys.
      - destruct (m_w n); auto. f_equal. apply map_ext. intros row. exact (sum_prod row (1 :: ys)).
      - unfold ys. apply map_ext. intros row. f_equal. symmetry. exact (sum_prod row (1 :: h)). }
    split; auto.
    destruct (predict_layers_ok ss ls k x Hok Hx) as (Q1 & Q2 & Q3). fold h in Q1, Q2.
    pose proof (predict_layers_last ls l x) as PL. rewrite Q1 in PL.
    assert (Hlp : layer_predict h l = (l1, Ok ys)).
    { unfold layer_predict. rewrite Hn, (assign_tail_eq _ _ _ Hso) by auto. unfold l1, ys, wsum. rewrite map_map.
      assert (Em : map (fun row => act (l_f l) (nsum (map2 nmul row (n1 :: h)))) (l_w l) = map (fun row => act (l_f l) (Rdot row (1 :: h))) (l_w l)).
      { apply map_ext. intros row. f_equal. exact (sum_prod row (1 :: h)). }
      rewrite Em, Hn. reflexivity. }
    rewrite Hlp in PL. cbn [fst snd] in PL.
    set (n1' := fst (net_predict x n)) in *.
    pose proof H as (N1 & N2 & N3 & N4 & N5 & N6).
    assert (Hys : length ys = last sizes 0%nat).
    { unfold ys. rewrite map_length. destruct Hsh as (-> & _). rewrite Es, last_last. reflexivity. }
    assert (En1 : m_mu n1' = m_mu n /\ m_w n1' = m_w n /\ m_x n1' = 1 :: ys /\ m_layers n1' = fst (predict_layers ls x) ++ [l1]).
    { unfold n1', net_predict. rewrite El, PL. pose proof (starts_one_len _ _ N5) as Hxl.
      replace (length (m_x n) - 1)%nat with (last sizes 0%nat) by lia.
      rewrite (assign_tail_eq _ _ _ N5 Hys). 
      destruct (m_w n) as [w|W]; [|cbn [fst m_mu m_w m_x m_layers]; auto].
      unfold vdot. destruct (_ =? _)%nat; cbn [rmap fst m_mu m_w m_x m_layers]; auto. }
    destruct En1 as (M1 & M2 & M3 & M4).
    destruct (net_update_ok sizes k o d n1' (net_predict_inv _ _ _ x n H) P2 Hd) as (U1 & U2).
    unfold learn. cbn [fst snd]. fold n1'. revert U1. unfold net_update. rewrite P4.
    assert (V3 : vlen (m_y n1') o) by (rewrite P4; auto).
    destruct (val_sub_minus o d (m_y n1') Hd V3) as (V1 & _). rewrite P4 in V1. rewrite V1. rewrite M1, M2, M3.
    destruct (out_step (m_mu n) _ (1 :: ys) (m_w n)) as [[w' wold]|] eqn:Eo; [|intros Hc; discriminate Hc].
    intros U1. exists w', wold. rewrite M4 in *.
    pose proof (update_layers_last (fst (predict_layers ls x)) l1 wold (minus d (forward n x))) as UL.
    destruct (snd (layer_update wold (minus d (forward n x)) l1)) as [[w2 e2]|] eqn:E2.
    - rewrite UL. cbn [fst m_w m_layers]. eexists. split; [reflexivity|]. split; [reflexivity|]. split; [reflexivity|].
      rewrite update_layers_len, <- (map_length layer_par), predict_layers_par, map_length. reflexivity.
    - rewrite UL. cbn [fst m_w m_layers]. eexists. split; [reflexivity|]. split; [reflexivity|]. split; [reflexivity|].
      rewrite <- (map_length layer_par), predict_layers_par, map_length. reflexivity.
  Qed.

  Lemma Rsum_map2 m (g : R -> R -> R) t y : length t = m -> length y = m ->
    Rsum (map2 g t y) = sumn m (fun i => g (nth i t 0) (nth i y 0)).
  Proof.
    intros Ht Hy. rewrite Rsum_sumn, map2_len. replace (Nat.min (length t) (length y)) with m by lia.
    apply sumn_ext. intros i Hi. apply (map2_nth g t y i 0 0 0); lia.
  Qed.
  Lemma step_ent q p mu (W : rmat) (el v : rvec) r c : shape q p W -> length el = q -> length v = p -> (r < q)%nat -> (c < p)%nat ->
    ent (map2 (map2 nadd) W (mscale mu (outer el v))) r c = ent W r c + mu * (nth r el 0 * nth c v 0).
  Proof.
    intros HW He Hv Hr Hc.
    assert (HO : shape q p (mscale mu (outer el v))) by (apply mscale_shape; rewrite <- He, <- Hv; apply outer_shape).
    change (@nadd R (RNum solve)) with Rplus. rewrite (map2m_ent q p Rplus) by auto. f_equal.
    unfold ent, mscale, outer. rewrite (map_nth_lt _ _ _ ([] : rvec)) by (rewrite map_length; lia).
    unfold vscale. rewrite (map_nth_lt _ _ _ 0) by (rewrite (map_nth_lt _ _ _ 0), map_length by lia; lia).
    rewrite (map_nth_lt _ _ _ 0) by lia. rewrite (map_nth_lt _ _ _ 0) by lia. reflexivity.
  Qed.

  (** the output layer is moved by minus mu times the gradient of half the squared error *)
  Theorem C46_output_layer : forall sizes n_input outputs n x d r c,
    net_reach sizes n_input outputs n -> length x = n_input -> vlen d outputs ->
    (r < outputs)%nat -> (c <= last sizes 0)%nat ->
    exists g, derivable_pt_lim (fun t => loss (set_out_w n r c t) x d) (out_w n r c) g /\
      out_w (learn n (x, d)) r c = out_w n r c - m_mu n * g.
  Proof.
    intros sizes k o n x d r c H Hx Hd Hr Hc. apply net_reach_ok in H.
    destruct (split_last sizes k o n H) as (ss & s & ls & l & Es & El & Hll & Hok & Hn & Hsh & Hso).
    destruct (learned_last sizes k o n x d H Hx Hd ls l El) as (Hf & w' & wold & ls' & Eo & Ew & _ & _).
    set (h := hidden (map layer_par ls) x) in *. set (ys := map (fun row => act (l_f l) (Rdot row (1 :: h))) (l_w l)) in *.
    pose proof H as (_ & _ & _ & _ & _ & N6).
    assert (Hys : length ys = last sizes 0%nat).
    { unfold ys. rewrite map_length. destruct Hsh as (-> & _). rewrite Es, last_last. reflexivity. }
    assert (Hfs : forall w, forward (set_out n w) x = match w with W1 w => VNum (Rdot w (1 :: ys)) | W2 W => VArr (map (fun row => Rdot row (1 :: ys)) W) end).
    { intros w. unfold forward, set_out. cbn [m_w m_layers]. rewrite El, map_app, hidden_app. cbn [map hidden layer_par]. fold h.
      replace (map (fun row => act (l_f l) (nsum (map2 nmul row (n1 :: h)))) (l_w l)) with ys.
      - destruct w; auto. f_equal. apply map_ext. intros row. exact (sum_prod row (1 :: ys)).
      - unfold ys. apply map_ext. intros row. f_equal. symmetry. exact (sum_prod row (1 :: h)). }
    unfold set_out_w, out_w. rewrite Ew, Hf in *. unfold loss, set_out_w. destruct (m_w n) as [w|W].
    - destruct N6 as (-> & Hw). destruct d as [t0|]; [|destruct Hd; contradiction].
      cbn [minus out_step rbind] in Eo. unfold iadd1 in Eo. rewrite map_length in Eo.
      replace (Nat.eqb (length (1 :: ys)) (length w)) with true in Eo by (symmetry; apply Nat.eqb_eq; simpl; lia).
      cbn [rmap] in Eo. injection Eo as <- _.
      exists (- ((t0 - Rdot w (1 :: ys)) * nth c (1 :: ys) 0)). split.
      + apply (derivable_pt_lim_ext (fun t => (t0 - (Rdot w (1 :: ys) + nth c (1 :: ys) 0 * (t - nth c w 0))) * (t0 - (Rdot w (1 :: ys) + nth c (1 :: ys) 0 * (t - nth c w 0))) / 2)).
        * intros t. rewrite Hfs, Rdot_set by (simpl; lia). f_equal. f_equal; ring.
        * pose proof (der_half_square t0 _ _ _ (der_affine (Rdot w (1 :: ys)) (nth c (1 :: ys) 0) (nth c w 0))) as D.
          cbv beta in D. rewrite (Rminus_diag_eq (nth c w 0) (nth c w 0) eq_refl), Rmult_0_r, Rplus_0_r in D. exact D.
      + match goal with |- nth c (map2 ?g w ?z) 0 = _ => change z with (map (Rmult (m_mu n * (t0 - Rdot w (1 :: ys)))) (1 :: ys)) end.
        rewrite (map2_nth _ w _ c 0 0 0) by (rewrite ?map_length; simpl; lia).
        rewrite (map_nth_lt _ _ _ 0) by (simpl; lia).
        change (nth c w 0 + m_mu n * (t0 - Rdot w (1 :: ys)) * nth c (1 :: ys) 0 = nth c w 0 - m_mu n * - ((t0 - Rdot w (1 :: ys)) * nth c (1 :: ys) 0)). ring.
    - destruct N6 as (No & HW). destruct d as [|t0]; [simpl in Hd; contradiction|]. destruct Hd as (_ & Hd).
      assert (HW' : shape o (last sizes 0%nat + 1) W) by exact HW. pose proof HW' as (HWl & _).
      cbn [minus out_step val_list] in Eo. set (e := map2 nsub t0 (map (fun row => Rdot row (1 :: ys)) W)) in *.
      assert (He : length e = o) by (unfold e; rewrite map2_len, map_length; lia).
      rewrite iadd2_same in Eo by (rewrite outer_len; lia). cbn [rmap] in Eo. injection Eo as <- _.
      assert (Her : nth r e 0 = nth r t0 0 - Rdot (nth r W []) (1 :: ys)).
      { unfold e. rewrite (map2_nth _ _ _ _ 0 0) by (rewrite ?map_length; lia). rewrite (map_nth_lt _ _ _ ([] : rvec)) by lia. reflexivity. }
      exists (- ((nth r t0 0 - Rdot (nth r W []) (1 :: ys)) * nth c (1 :: ys) 0)). split.
      + pose proof (shape_row _ _ _ _ HW' Hr) as Hrow.
        set (f := fun i t => let y := if (i =? r)%nat then Rdot (nth r W []) (1 :: ys) + nth c (1 :: ys) 0 * (t - ent W r c) else Rdot (nth i W []) (1 :: ys) in (nth i t0 0 - y) * (nth i t0 0 - y) / 2).
        apply (derivable_pt_lim_ext (fun t => sumn o (fun i => f i t))).
        * intros t. rewrite Hfs. rewrite (Rsum_map2 o) by (unfold set_entry; rewrite ?map_length, ?set_nth_length; auto).
          apply sumn_ext. intros i Hi. unfold f, set_entry. rewrite (map_nth_lt _ _ _ ([] : rvec)) by (rewrite set_nth_length; lia).
          rewrite set_nth_nth by lia. destruct (Nat.eqb_spec i r) as [->|]; [|reflexivity].
          rewrite Rdot_set by (simpl; lia). unfold ent. cbv zeta. f_equal. f_equal; ring.
        * replace (- ((nth r t0 0 - Rdot (nth r W []) (1 :: ys)) * nth c (1 :: ys) 0)) with
            (sumn o (fun i => (if (r =? i)%nat then 1 else 0) * - ((nth r t0 0 - Rdot (nth r W []) (1 :: ys)) * nth c (1 :: ys) 0)))
            by (rewrite (sumn_delta o r (fun _ => - ((nth r t0 0 - Rdot (nth r W []) (1 :: ys)) * nth c (1 :: ys) 0))); auto).
          apply der_sumn. intros i Hi. unfold f. cbv zeta. rewrite (Nat.eqb_sym i r). destruct (Nat.eqb_spec r i) as [<-|].
          -- rewrite Rmult_1_l.
             pose proof (der_half_square (nth r t0 0) _ _ _ (der_affine (Rdot (nth r W []) (1 :: ys)) (nth c (1 :: ys) 0) (ent W r c))) as D.
             cbv beta in D. rewrite (Rminus_diag_eq (ent W r c) (ent W r c) eq_refl), Rmult_0_r, Rplus_0_r in D. exact D.
          -- rewrite Rmult_0_l. apply (derivable_pt_lim_const _ _).
      + rewrite (step_ent o (last sizes 0%nat + 1)) by (simpl; auto; lia). rewrite Her. ring.
  Qed.

  (** *** the last hidden layer *)
  Lemma set_hidden_layers n ls l r c t : m_layers n = ls ++ [l] ->
    m_layers (set_hidden n (length ls) r c t) = ls ++ [set_lw l (set_entry r c t (l_w l))].
  Proof.
    intros El. unfold set_hidden. cbn [m_layers]. rewrite El, nth_error_app2, Nat.sub_diag by lia. cbn [nth_error].
    apply set_nth_last.
  Qed.
  Lemma nth_error_last {A} (l : list A) a : nth_error (l ++ [a]) (length l) = Some a.
  Proof. rewrite nth_error_app2, Nat.sub_diag by lia. reflexivity. Qed.

  (** forward pass with one weight of the last hidden layer replaced *)
  Lemma forward_set_hidden sizes k o n x r c t ss s ls l : net_ok sizes k o n -> length x = k ->
    sizes = ss ++ [s] -> m_layers n = ls ++ [l] -> ls_ok k ss ls -> l_n l = last ss k -> shape s (last ss k + 1) (l_w l) ->
    (r < s)%nat -> (c <= last ss k)%nat ->
    let h := hidden (map layer_par ls) x in
    let ys := map (fun row => act (l_f l) (Rdot row (1 :: h))) (l_w l) in
    let a := node (l_f l) (nth r (l_w l) []) (1 :: h) c t - nth r ys 0 in
    forward (set_hidden n (length ls) r c t) x =
      match m_w n with
      | W1 w => VNum (Rdot w (1 :: ys) + nth (S r) w 0 * a)
      | W2 W => VArr (map (fun row => Rdot row (1 :: ys) + nth (S r) row 0 * a) W)
      end.
  Proof.
    intros H Hx Es El Hok Hn Hsh Hr Hc h ys a.
    destruct (predict_layers_ok ss ls k x Hok Hx) as (_ & Hh & _). fold h in Hh.
    pose proof Hsh as (Hlw & _). pose proof (shape_row _ _ _ _ Hsh Hr) as Hrow.
    unfold forward. rewrite (set_hidden_layers n ls l r c t El), map_app, hidden_app. cbn [map hidden layer_par set_lw l_mu l_n l_w l_f]. fold h.
    assert (E : map (fun row => act (l_f l) (nsum (map2 nmul row (n1 :: h)))) (set_entry r c t (l_w l)) =
                set_nth r (node (l_f l) (nth r (l_w l) []) (1 :: h) c t) ys).
    { unfold set_entry. rewrite map_set_nth. unfold ys. f_equal.
      - unfold node. f_equal. transitivity (Rdot (set_nth c t (nth r (l_w l) [])) (1 :: h)); [exact (sum_prod _ (1 :: h))|].
        rewrite Rdot_set by (simpl; lia). ring.
      - apply map_ext. intros row. f_equal. exact (sum_prod row (1 :: h)). }
    rewrite E. clear E. pose proof H as (_ & _ & _ & _ & _ & N6).
    assert (Hys : length ys = last sizes 0%nat) by (unfold ys; rewrite map_length, Hlw, Es, last_last; auto).
    assert (Hrs : (r < length ys)%nat) by (unfold ys; rewrite map_length; lia).
    assert (Hd : forall w, length w = (last sizes 0%nat + 1)%nat -> forall b, Rdot w (1 :: set_nth r b ys) = Rdot w (1 :: ys) + nth (S r) w 0 * (b - nth r ys 0)).
    { intros w Hw b. change (1 :: set_nth r b ys) with (set_nth (S r) b (1 :: ys)). rewrite Rdot_set_r by (simpl; lia). reflexivity. }
    unfold set_hidden. cbn [m_w]. destruct (m_w n) as [w|W].
    - destruct N6 as (_ & Hw). f_equal. change (@n1 R (RNum solve)) with 1. apply Hd; auto.
    - destruct N6 as (_ & HW1 & HW2). f_equal. apply map_ext_in. intros row Hin. rewrite Forall_forall in HW2.
      transitivity (Rdot row (1 :: set_nth r (node (l_f l) (nth r (l_w l) []) (1 :: h) c t) ys)); [exact (sum_prod row (1 :: _))|].
      apply Hd; auto.
  Qed.

  (** one output: the last hidden layer is moved by minus its learning rate times the gradient *)
  Theorem C46_last_hidden_layer_one_output : forall sizes n_input n x d r c,
    net_reach sizes n_input 1 n -> length x = n_input ->
    let q := (length sizes - 1)%nat in
    (r < last sizes 0)%nat -> (c <= last (removelast sizes) n_input)%nat ->
    exists g, derivable_pt_lim (fun t => loss (set_hidden n q r c t) x (VNum d)) (hidden_w n q r c) g /\
      hidden_w (learn n (x, VNum d)) q r c = hidden_w n q r c - hidden_mu n q * g.
  Proof.
    intros sizes k n x d r c H Hx q Hr Hc. apply net_reach_ok in H.
    destruct (split_last sizes k 1 n H) as (ss & s & ls & l & Es & El & Hll & Hok & Hn & Hsh & Hso).
    assert (Hd : vlen (VNum d) 1) by reflexivity.
    destruct (learned_last sizes k 1 n x (VNum d) H Hx Hd ls l El) as (Hf & w' & wold & ls' & Eo & _ & Elm & Hl').
    rewrite Es in Hr, Hc. rewrite last_last in Hr. rewrite removelast_last in Hc.
    assert (Hq : q = length ls) by (unfold q; rewrite Es, app_length, Hll; simpl; lia). rewrite Hq in *. clear q Hq.
    assert (HF := fun t => forward_set_hidden sizes k 1 n x r c t ss s ls l H Hx Es El Hok Hn Hsh Hr Hc). cbv zeta in HF.
    destruct (predict_layers_ok ss ls k x Hok Hx) as (_ & Hh & _).
    set (h := hidden (map layer_par ls) x) in *. set (ys := map (fun row => act (l_f l) (Rdot row (1 :: h))) (l_w l)) in *.
    pose proof H as (_ & _ & _ & _ & _ & N6). pose proof Hsh as (Hlw & _).
    assert (Hys : length ys = s) by (unfold ys; rewrite map_length; auto).
    assert (Hyr : nth r ys 0 = act (l_f l) (Rdot (nth r (l_w l) []) (1 :: h))).
    { unfold ys. rewrite (map_nth_lt _ _ _ ([] : rvec)) by lia. reflexivity. }
    destruct (m_w n) as [w|W]; [|destruct N6; congruence]. destruct N6 as (_ & Hw). rewrite Es, last_last in Hw.
    rewrite Hf in *. cbn [minus] in *. set (y := Rdot w (1 :: ys)) in *. set (e := d - y).
    cbn [out_step rbind] in Eo. unfold iadd1 in Eo. rewrite map_length in Eo.
    replace (Nat.eqb (length (1 :: ys)) (length w)) with true in Eo by (symmetry; apply Nat.eqb_eq; simpl; lia).
    cbn [rmap] in Eo. injection Eo as _ <-.
    unfold hidden_w, hidden_mu. rewrite El, Elm, <- Hl', nth_error_last, Hl', nth_error_last.
    assert (Hnz : node (l_f l) (nth r (l_w l) []) (1 :: h) c (ent (l_w l) r c) = nth r ys 0).
    { unfold node, ent. rewrite (Rminus_diag_eq _ _ eq_refl), Rmult_0_r, Rplus_0_r. auto. }
    exists (- (e * (nth (S r) w 0 * (act_der (l_f l) (nth r ys 0) * nth c (1 :: h) 0)))). split.
    - unfold loss. eapply derivable_pt_lim_ext; [intros t; rewrite HF; reflexivity|]. cbv beta.
      assert (Hp : derivable_pt_lim (fun t => y + nth (S r) w 0 * (node (l_f l) (nth r (l_w l) []) (1 :: h) c t - nth r ys 0)) (ent (l_w l) r c)
        (nth (S r) w 0 * (act_der (l_f l) (nth r ys 0) * nth c (1 :: h) 0))).
      { pose proof (der_node (l_f l) (nth r (l_w l) []) (1 :: h) c) as D. rewrite <- Hyr in D.
        pose proof (derivable_pt_lim_minus _ _ _ _ _ D (derivable_pt_lim_const (nth r ys 0) _)) as D1.
        pose proof (derivable_pt_lim_scal _ (nth (S r) w 0) _ _ D1) as D2.
        pose proof (derivable_pt_lim_plus _ _ _ _ _ (derivable_pt_lim_const y _) D2) as D3.
        rewrite Rminus_0_r, Rplus_0_l in D3. exact D3. }
      pose proof (der_half_square d _ _ _ Hp) as D. cbv beta in D. rewrite Hnz, (Rminus_diag_eq _ _ eq_refl), Rmult_0_r, Rplus_0_r in D. exact D.
    - unfold layer_update. cbn [layer_error mul_val rbind l_y l_f l_w l_mu l_x]. unfold bc_mul.
      rewrite bc_same by (rewrite !map_length; destruct w; simpl in *; lia).
      set (el := map2 nmul (map (fun t => nmul t (nsub d y)) (map (act_der (l_f l)) ys)) (tl w)).
      assert (Hel : length el = s) by (unfold el; rewrite map2_len, !map_length; destruct w; simpl in *; lia).
      rewrite iadd2_same by (rewrite outer_len; lia). cbn [fst l_w].
      rewrite (step_ent s (last ss k + 1)) by (simpl; auto; lia).
      assert (Her : nth r el 0 = act_der (l_f l) (nth r ys 0) * e * nth (S r) w 0).
      { unfold el. rewrite (map2_nth _ _ _ _ 0 0) by (rewrite ?map_length; destruct w; simpl in *; lia).
        rewrite (map_nth_lt _ _ _ 0) by (rewrite map_length; lia). rewrite (map_nth_lt _ _ _ 0) by lia.
        destruct w; [simpl in Hw; lia|]. reflexivity. }
      rewrite Her. ring.
  Qed.

  (** several outputs: the increment of the last hidden layer carries an additional factor 1 - y, where
      y is the output of the node *)
  Theorem C46_last_hidden_layer_many_outputs : forall sizes n_input outputs n x d r c,
    net_reach sizes n_input outputs n -> length x = n_input -> outputs <> 1%nat -> length d = outputs ->
    let q := (length sizes - 1)%nat in
    (r < last sizes 0)%nat -> (c <= last (removelast sizes) n_input)%nat ->
    exists g, derivable_pt_lim (fun t => loss (set_hidden n q r c t) x (VArr d)) (hidden_w n q r c) g /\
      hidden_w (learn n (x, VArr d)) q r c =
        hidden_w n q r c - hidden_mu n q * (1 - nth r (hidden (map layer_par (m_layers n)) x) 0) * g.
  Proof.
    intros sizes k o n x d r c H Hx Ho Hdl q Hr Hc. apply net_reach_ok in H.
    destruct (split_last sizes k o n H) as (ss & s & ls & l & Es & El & Hll & Hok & Hn & Hsh & Hso).
    assert (Hd : vlen (VArr d) o) by (split; auto).
    destruct (learned_last sizes k o n x (VArr d) H Hx Hd ls l El) as (Hf & w' & wold & ls' & Eo & _ & Elm & Hl').
    rewrite Es in Hr, Hc. rewrite last_last in Hr. rewrite removelast_last in Hc.
    assert (Hq : q = length ls) by (unfold q; rewrite Es, app_length, Hll; simpl; lia). rewrite Hq in *. clear q Hq.
    assert (HF := fun t => forward_set_hidden sizes k o n x r c t ss s ls l H Hx Es El Hok Hn Hsh Hr Hc). cbv zeta in HF.
    destruct (predict_layers_ok ss ls k x Hok Hx) as (_ & Hh & _).
    assert (Ehid : nth r (hidden (map layer_par (m_layers n)) x) 0 = act (l_f l) (Rdot (nth r (l_w l) []) (1 :: hidden (map layer_par ls) x))).
    { rewrite El, map_app, hidden_app. cbn [map hidden layer_par]. destruct Hsh as (Hlw & _).
      rewrite (map_nth_lt _ _ _ ([] : rvec)) by lia. f_equal. exact (sum_prod _ (1 :: _)). }
    set (h := hidden (map layer_par ls) x) in *. set (ys := map (fun row => act (l_f l) (Rdot row (1 :: h))) (l_w l)) in *.
    pose proof H as (_ & _ & _ & _ & _ & N6). pose proof Hsh as (Hlw & _).
    assert (Hys : length ys = s) by (unfold ys; rewrite map_length; auto).
    assert (Hyr : nth r ys 0 = act (l_f l) (Rdot (nth r (l_w l) []) (1 :: h))).
    { unfold ys. rewrite (map_nth_lt _ _ _ ([] : rvec)) by lia. reflexivity. }
    rewrite Ehid, <- Hyr. clear Ehid.
    destruct (m_w n) as [w|W]; [destruct N6; congruence|]. destruct N6 as (_ & HW). rewrite Es, last_last in HW.
    assert (HW' : shape o (s + 1) W) by exact HW. pose proof HW' as (HWl & _).
    rewrite Hf in *. cbn [minus] in *. set (e := map2 nsub d (map (fun row => Rdot row (1 :: ys)) W)) in *.
    assert (He : length e = o) by (unfold e; rewrite map2_len, map_length; lia).
    assert (Hei : forall i, (i < o)%nat -> nth i e 0 = nth i d 0 - Rdot (nth i W []) (1 :: ys)).
    { intros i Hi. unfold e. rewrite (map2_nth _ _ _ _ 0 0) by (rewrite ?map_length; lia). rewrite (map_nth_lt _ _ _ ([] : rvec)) by lia. reflexivity. }
    cbn [out_step val_list] in Eo. rewrite iadd2_same in Eo by (rewrite outer_len; lia). cbn [rmap] in Eo. injection Eo as _ <-.
    unfold hidden_w, hidden_mu. rewrite El, Elm, <- Hl', nth_error_last, Hl', nth_error_last.
    assert (Hnz : node (l_f l) (nth r (l_w l) []) (1 :: h) c (ent (l_w l) r c) = nth r ys 0).
    { unfold node, ent. rewrite (Rminus_diag_eq _ _ eq_refl), Rmult_0_r, Rplus_0_r. auto. }
    set (D := act_der (l_f l) (nth r ys 0)). set (S0 := sumn o (fun i => nth i e 0 * ent W i (S r))).
    exists (sumn o (fun i => - ((nth i d 0 - Rdot (nth i W []) (1 :: ys)) * (ent W i (S r) * (D * nth c (1 :: h) 0))))). split.
    - unfold loss.
      apply (derivable_pt_lim_ext (fun t => sumn o (fun i => (nth i d 0 - (Rdot (nth i W []) (1 :: ys) + ent W i (S r) * (node (l_f l) (nth r (l_w l) []) (1 :: h) c t - nth r ys 0))) *
         (nth i d 0 - (Rdot (nth i W []) (1 :: ys) + ent W i (S r) * (node (l_f l) (nth r (l_w l) []) (1 :: h) c t - nth r ys 0))) / 2))).
      { intros t. rewrite HF. rewrite (Rsum_map2 o) by (rewrite ?map_length; auto).
        apply sumn_ext. intros i Hi. rewrite (map_nth_lt _ _ _ ([] : rvec)) by lia. reflexivity. }
      apply der_sumn. intros i Hi. set (y := Rdot (nth i W []) (1 :: ys)).
      assert (Hp : derivable_pt_lim (fun t => y + ent W i (S r) * (node (l_f l) (nth r (l_w l) []) (1 :: h) c t - nth r ys 0)) (ent (l_w l) r c)
        (ent W i (S r) * (D * nth c (1 :: h) 0))).
      { pose proof (der_node (l_f l) (nth r (l_w l) []) (1 :: h) c) as D0. rewrite <- Hyr in D0.
        pose proof (derivable_pt_lim_minus _ _ _ _ _ D0 (derivable_pt_lim_const (nth r ys 0) _)) as D1.
        pose proof (derivable_pt_lim_scal _ (ent W i (S r)) _ _ D1) as D2.
        pose proof (derivable_pt_lim_plus _ _ _ _ _ (derivable_pt_lim_const y _) D2) as D3.
        rewrite Rminus_0_r, Rplus_0_l in D3. exact D3. }
      pose proof (der_half_square (nth i d 0) _ _ _ Hp) as D3. cbv beta in D3. rewrite Hnz, (Rminus_diag_eq _ _ eq_refl), Rmult_0_r, Rplus_0_r in D3. exact D3.
    - unfold layer_update. cbn [layer_error l_y l_f l_w l_mu l_x]. unfold vmdot, bc_mul.
      rewrite map_length, He, HWl, Nat.eqb_refl. cbn [rbind].
      rewrite bc_same by (rewrite !map_length, seq_length; lia).
      set (el := map2 nmul _ _).
      assert (Hel : length el = s) by (unfold el; rewrite map2_len, !map_length, seq_length; lia).
      rewrite iadd2_same by (rewrite outer_len; lia). cbn [fst l_w].
      rewrite (step_ent s (last ss k + 1)) by (simpl; auto; lia).
      assert (Her : nth r el 0 = D * (1 - nth r ys 0) * S0).
      { unfold el. rewrite (map2_nth _ _ _ _ 0 0) by (rewrite ?map_length, ?seq_length; lia).
        rewrite (map_nth_lt _ _ _ 0) by lia. rewrite (map_nth_lt _ _ _ 0%nat) by (rewrite seq_length; lia). rewrite seq_nth by lia.
        change (@nmul R (RNum solve)) with Rmult. f_equal. change (@ndot R (RNum solve)) with Rdot.
        rewrite (Rdot_sumn o) by (auto; rewrite (column_len solve), map_length; auto).
        apply sumn_ext. intros i Hi. f_equal. rewrite (column_nth solve) by (rewrite map_length; lia).
        unfold ent. rewrite (map_nth_lt _ _ _ ([] : rvec)) by lia.
        pose proof (shape_row _ _ _ _ HW' Hi). destruct (nth i W []); [simpl in *; lia|]. reflexivity. }
      rewrite Her. unfold S0.
      rewrite (sumn_ext o (fun i => - ((nth i d 0 - Rdot (nth i W []) (1 :: ys)) * (ent W i (S r) * (D * nth c (1 :: h) 0))))
                 (fun i => (- (D * nth c (1 :: h) 0)) * (nth i e 0 * ent W i (S r)))) by (intros i Hi; rewrite Hei by auto; ring).
      rewrite sumn_scal. ring.
  Qed.
End Grad.

(** ** Witnesses: not the gradient *)
Section Wit.
  Variable solve : list rvec -> list rvec -> option (list rvec).
  #[local] Hint Extern 0 (Num R) => exact (RNum solve) : typeclass_instances.
  Definition w_rng1 (s : R) (k : nat) : rvec := match k with 2%nat => [0; 1] | _ => repeat 0 k end.
  Definition w_rng (i : nat) (s : R) (r c : nat) : rmat :=
    match i, r, c with
    | 2%nat, 1%nat, 2%nat => [[- (1 / 2); 1]]
    | 0%nat, 2%nat, 2%nat => [[0; 1]; [0; 0]]
    | _, _, _ => repeat (repeat 0 c) r
    end.
  Lemma w_rngs_ok : rngs_ok w_rng1 w_rng.
  Proof.
    assert (Hz : forall r c, msh r c (repeat (repeat 0 c) r)).
    { intros r c; split; [apply repeat_length|]. apply Forall_forall. intros a Ha. apply repeat_spec in Ha; subst. apply repeat_length. }
    split.
    - intros s k. unfold w_rng1. destruct k as [|[|[|k]]]; auto. apply repeat_length.
    - intros i s r c. unfold w_rng.
      destruct i as [|[|[|i]]]; try apply Hz; destruct r as [|[|[|r]]]; try apply Hz; destruct c as [|[|[|c]]]; try apply Hz;
        (split; [reflexivity|repeat constructor]).
  Qed.
  Definition w_deep : net R := mkNet 1 1 1 (W1 [0; 1]) [1; 1] (VNum 0)
    [mkLayer 1 1 [[0; 0]] [1; 1] [0; 0] Sigmoid; mkLayer 1 1 [[- (1 / 2); 1]] [1; 1] [0; 0] Sigmoid].
  Lemma w_deep_reach : net_reach [1; 1]%nat 1 1 w_deep.
  Proof. apply (reach_net _ _ _ w_rng1 w_rng Sigmoid (MuNum 1)); [apply w_rngs_ok|]. reflexivity. Qed.
  Lemma sig0 z : z = 0 -> act Sigmoid z = 1 / 2.
  Proof. intros ->. rewrite act_sigmoid. rewrite Ropp_0, exp_0. field. Qed.

  Lemma w_pre0 : 0 * 1 + (0 * 1 + 0) = 0. Proof. ring. Qed.
  Lemma der_sig0 : act_der Sigmoid (1 / 2 : R) = 1 / 4.
  Proof. change (1 / 2 * (1 - 1 / 2) = 1 / 4). field. Qed.

  (** a network with two hidden layers: the first one is not moved along the gradient *)
  Theorem C46_deeper_layers_refuted : exists sizes n_input n x d q r c,
    net_reach sizes n_input 1 n /\ length x = n_input /\ (q < length sizes - 1)%nat /\ (r < nth q sizes 0)%nat /\
    exists g, derivable_pt_lim (fun t => loss solve (set_hidden n q r c t) x (VNum d)) (hidden_w n q r c) g /\
      hidden_w (learn n (x, VNum d)) q r c <> hidden_w n q r c - hidden_mu n q * g.
  Proof.
    exists [1; 1]%nat, 1%nat, w_deep, [1], 1, 0%nat, 0%nat, 0%nat.
    split; [apply w_deep_reach|]. split; [reflexivity|]. split; [simpl; lia|]. split; [simpl; lia|].
    exists (- (1 / 32)). split.
    - set (phi := comp (act Sigmoid) (fun t => - (1 / 2) + 1 * (act Sigmoid t - 0))).
      apply (derivable_pt_lim_ext (fun t => (1 - phi t) * (1 - phi t) / 2)).
      + intros t. unfold loss, forward, set_hidden, w_deep.
        cbn -[act act_der Rmult Rplus Rminus IZR Ropp Rdiv nsum nmul]. unfold nsum, nmul, n1, RNum. cbn [map2 Rsum nofZ]. fold (RNum solve).
        unfold phi, comp.
        match goal with |- context [act Sigmoid (t * 1 + ?z)] => replace (t * 1 + z) with t by ring end.
        match goal with |- context [act Sigmoid (- (1 / 2) * 1 + ?z)] => replace (- (1 / 2) * 1 + z) with (- (1 / 2) + 1 * (act Sigmoid t - 0)) by ring end.
        match goal with |- (1 - ?b) * _ / 2 = (1 - ?a) * _ / 2 => replace a with b by ring end. reflexivity.
      + assert (Hs : act Sigmoid (0 : R) = 1 / 2) by (apply sig0; reflexivity).
        assert (Hi : derivable_pt_lim (fun t => - (1 / 2) + 1 * (act Sigmoid t - 0)) 0 (1 / 4)).
        { pose proof (C45_derivative solve Sigmoid 0) as D. rewrite Hs, der_sig0 in D.
          pose proof (derivable_pt_lim_minus _ _ _ _ _ D (derivable_pt_lim_const 0 0)) as D1.
          pose proof (derivable_pt_lim_scal _ 1 _ _ D1) as D2.
          pose proof (derivable_pt_lim_plus _ _ _ _ _ (derivable_pt_lim_const (- (1 / 2)) 0) D2) as D3.
          rewrite Rminus_0_r, Rplus_0_l, Rmult_1_l in D3. exact D3. }
        assert (Hz : - (1 / 2) + 1 * (act Sigmoid (0 : R) - 0) = 0) by (rewrite Hs; lra).
        pose proof (C45_derivative solve Sigmoid (- (1 / 2) + 1 * (act Sigmoid (0 : R) - 0))) as Do.
        rewrite (sig0 _ Hz), der_sig0 in Do.
        pose proof (derivable_pt_lim_comp _ _ _ _ _ Hi Do) as Dc. fold phi in Dc.
        pose proof (der_half_square 1 phi 0 _ Dc) as Dh.
        assert (Hp : phi 0 = 1 / 2) by (unfold phi, comp; apply sig0; exact Hz). rewrite Hp in Dh.
        replace (- (1 / 32)) with (- ((1 - 1 / 2) * (1 / 4 * (1 / 4)))) by field. exact Dh.
    - unfold learn. cbn [fst snd]. unfold net_predict, w_deep at 1. cbn [m_layers predict_layers]. unfold layer_predict.
      cbn -[act act_der Rmult Rplus Rminus IZR Ropp Rdiv nsum nmul]. unfold nsum, nmul, n1, RNum. cbn [map2 Rsum nofZ]. fold (RNum solve).
      rewrite (sig0 _ w_pre0). rewrite (sig0 (- (1 / 2) * 1 + (1 * (1 / 2) + 0))) by lra. rewrite der_sig0. lra.
  Qed.

  (** a network with two outputs: neither is the only hidden layer *)
  Definition w_two : net R := mkNet 1 1 2 (W2 [[0; 1]; [0; 0]]) [1; 1] (VNum 0)
    [mkLayer 1 1 [[0; 0]] [1; 1] [0; 0] Sigmoid].
  Lemma w_two_reach : net_reach [1]%nat 1 2 w_two.
  Proof. apply (reach_net _ _ _ w_rng1 w_rng Sigmoid (MuNum 1)); [apply w_rngs_ok|]. reflexivity. Qed.
  Theorem C46_many_outputs_refuted : exists sizes n_input outputs n x d q r c,
    net_reach sizes n_input outputs n /\ length x = n_input /\ vlen d outputs /\
    exists g, derivable_pt_lim (fun t => loss solve (set_hidden n q r c t) x d) (hidden_w n q r c) g /\
      hidden_w (learn n (x, d)) q r c <> hidden_w n q r c - hidden_mu n q * g.
  Proof.
    exists [1]%nat, 1%nat, 2%nat, w_two, [1], (VArr [1; 0]), 0%nat, 0%nat, 0%nat.
    split; [apply w_two_reach|]. split; [reflexivity|]. split; [split; [lia|reflexivity]|].
    destruct (C46_last_hidden_layer_many_outputs solve [1]%nat 1 2 w_two [1] [1; 0] 0 0 w_two_reach eq_refl ltac:(lia) eq_refl ltac:(simpl; lia) ltac:(simpl; lia)) as (g & D & E).
    cbn [length Nat.sub] in D, E. exists g. split; auto. rewrite E. clear E.
    assert (Hg : g = - (1 / 8)).
    { refine (uniqueness_limite _ _ _ _ D _).
      apply (derivable_pt_lim_ext (fun t => (1 - (0 + act Sigmoid t)) * (1 - (0 + act Sigmoid t)) / 2)).
      - intros t. unfold loss, forward, set_hidden, w_two.
        cbn -[act act_der Rmult Rplus Rminus IZR Ropp Rdiv nsum nmul]. unfold nsum, nmul, n1, RNum. cbn [map2 Rsum nofZ]. fold (RNum solve).
        replace (t * 1 + (0 * 1 + 0)) with t by ring. field.
      - pose proof (C45_derivative solve Sigmoid 0) as Ds. rewrite (sig0 0 eq_refl), der_sig0 in Ds.
        pose proof (derivable_pt_lim_plus _ _ _ _ _ (derivable_pt_lim_const 0 0) Ds) as D1. rewrite Rplus_0_l in D1.
        pose proof (der_half_square 1 _ _ _ D1) as D2. unfold plus_fct, fct_cte in D2. rewrite (sig0 0 eq_refl) in D2.
        replace (- (1 / 8)) with (- ((1 - (0 + 1 / 2)) * (1 / 4))) by field. exact D2. }
    rewrite Hg. cbn -[act act_der Rmult Rplus Rminus IZR Ropp Rdiv nsum nmul]. unfold nsum, nmul, n1, RNum. cbn [map2 Rsum nofZ]. fold (RNum solve).
    rewrite (sig0 _ w_pre0). lra.
  Qed.

  (** ** C47 in exact arithmetic *)
  (** the documented mean squared error of epoch j: all N errors *)
  Definition documented_mse (j N : nat) (e : list (val R)) : R := Rsum (squares (epoch_errors j N e)) / INR N.
  Lemma Rsum_app u v : Rsum (u ++ v) = Rsum u + Rsum v.
  Proof. induction u as [|a u IH]; simpl; [ring|]. rewrite IH; ring. Qed.
  Lemma firstn_last {A} (l : list A) N d : length l = S N -> l = firstn N l ++ [nth N l d].
  Proof.
    revert N; induction l as [|a l IH]; intros [|N] H; simpl in H; try discriminate.
    - destruct l; [reflexivity|discriminate].
    - cbn [firstn nth app]. f_equal. apply IH. lia.
  Qed.
  Theorem C47_mse_omits_last : forall sizes n_input outputs n x d ds epochs shuffle,
    net_reach sizes n_input outputs n -> rows_of n_input x -> x <> [] -> fits outputs (length x) d ds ->
    (forall idx, shuffle = Some idx -> Permutation idx (seq 0 (length x))) ->
    exists n' e mse, net_train x d epochs shuffle n = (n', Ok (e, mse)) /\ length mse = epochs /\
      forall j, (j < epochs)%nat ->
        nth j mse 0 = documented_mse j (length x) e - Rsum (squares [nth ((j + 1) * length x - 1) e (VNum 0)]) / INR (length x).
  Proof.
    intros sizes k o n x d ds ep sh H Hx Hne Hf Hs.
    destruct (C47_train sizes k o n x d ds ep sh H Hx Hne Hf Hs) as (data & _ & _ & e & mse & E & He & Hm & _ & Hj).
    eexists _, e, mse. split; [exact E|]. split; auto. intros j Hlt. change 0 with (@n0 R (RNum solve)) at 1. rewrite Hj by auto.
    set (N := length x) in *. assert (HN : (0 < N)%nat) by (unfold N; destruct x; [contradiction|simpl; lia]).
    assert (Hle : length (epoch_errors j N e) = S (N - 1)).
    { unfold epoch_errors, slice. rewrite firstn_length, skipn_length. nia. }
    unfold documented_mse. rewrite (firstn_last (epoch_errors j N e) (N - 1) (VNum 0) Hle) at 1.
    assert (Hn : nth (N - 1) (epoch_errors j N e) (VNum 0) = nth ((j + 1) * N - 1) e (VNum 0)).
    { unfold epoch_errors, slice. replace (j * N + N - j * N)%nat with N by lia.
      rewrite <- (firstn_skipn (j * N) e) at 2. rewrite app_nth2; rewrite firstn_length; [|nia].
      replace ((j + 1) * N - 1 - Nat.min (j * N) (length e))%nat with (N - 1)%nat by nia.
      rewrite <- (firstn_skipn N (skipn (j * N) e)) at 2. rewrite app_nth1; auto. rewrite firstn_length, skipn_length. nia. }
    rewrite Hn. unfold partial_mse, squares. rewrite map_app, concat_app, map_app, Rsum_app. unfold nofnat. simpl (nofZ _).
    rewrite <- INR_IZR_INZ. change (@nsum R (RNum solve)) with Rsum. change (@ndiv R (RNum solve)) with Rdiv.
    field. apply not_0_INR. lia.
  Qed.
  (** so the reported value is wrong as soon as the last error of the epoch is not zero *)
  Theorem C47_mse_refuted : exists sizes n_input n x d e mse,
    net_reach sizes n_input 1 n /\ snd (net_train x (D1 d) 1 None n) = Ok (e, mse) /\
    nth 0 mse 0 <> documented_mse 0 (length x) e.
  Proof.
    exists [1; 1]%nat, 1%nat, w_deep, [[1]], [1], [VNum (1 / 2)], [0].
    split; [apply w_deep_reach|]. split.
    - unfold net_train, w_deep.
      cbn -[act act_der Rmult Rplus Rminus IZR Ropp Rdiv nsum nmul pow INR]. unfold nsum, nmul, n1, RNum. cbn [map2 Rsum nofZ]. fold (RNum solve).
      rewrite (sig0 _ w_pre0). rewrite (sig0 (- (1 / 2) * 1 + (1 * (1 / 2) + 0))) by lra.
      unfold ret. cbn [snd]. replace (1 - (0 * 1 + (1 * (1 / 2) + 0))) with (1 / 2) by lra. replace (0 / 1) with 0 by lra. reflexivity.
    - unfold documented_mse. cbn. lra.
  Qed.

  (** ** Non-vacuity *)
  Example C44_hypotheses : net_reach [1; 1]%nat 1 1 w_deep /\ rows_of 1 [[1]; [2]] /\ [[1]; [2]] <> [] /\
    fits 1 2 (D1 [1; 3]) [VNum 1; VNum 3] /\ Permutation [1; 0]%nat (seq 0 2).
  Proof.
    split; [apply w_deep_reach|]. split; [repeat constructor|]. split; [discriminate|]. split; [simpl; auto|]. apply perm_swap.
  Qed.
  Example C46_hypotheses : net_reach [1]%nat 1 2 w_two /\ length [1] = 1%nat /\ vlen (VArr [1; 0]) 2 /\ (0 < 2)%nat /\ (1 <= last [1] 0)%nat.
  Proof. split; [apply w_two_reach|]. split; auto. split; [split; [lia|reflexivity]|]. simpl; lia. Qed.
  Example C47_hypotheses : net_reach [1]%nat 1 2 w_two /\ rows_of 1 [[1]; [2]] /\ fits 2 2 (D2 2 [[1; 0]; [3; 4]]) [VArr [1; 0]; VArr [3; 4]].
  Proof. split; [apply w_two_reach|]. split; [repeat constructor|]. simpl. repeat split; auto. repeat constructor. Qed.
  Example C48_hypotheses : rngs_ok w_rng1 w_rng /\ (exists n, new_net w_rng1 w_rng [1; 1]%nat 1 1 Sigmoid (MuNum 1) = Ok n) /\
    vlen (VNum 1) 1 /\ rev [1; 1]%nat = [1; 1]%nat /\ (1 <> 1 + 1)%nat.
  Proof. split; [apply w_rngs_ok|]. split; [eexists; reflexivity|]. repeat split; lia. Qed.
End Wit.
