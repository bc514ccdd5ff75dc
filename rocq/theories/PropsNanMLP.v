(** Property C80: a nan that reaches the perceptron in training destroys it for good.  Any arithmetic with an absorbing
    number; nan of binary64 is one. *)
From Coq Require Import QArith Permutation.
From Verif Require Import Py Num Numpy Spec StructProofs Mlp PropsMLP.
Open Scope nat_scope.

Section Spec.
  Context {T : Type} {NT : Num T}.
  (** ** Specification *)
  (** a number passed on by + - *, unary minus, exp, by division as the divisor, by np.dot and np.sum as soon as one entry is it *)
  Record passed_on (bad : T) : Prop := {
    po_add_l : forall a, nadd bad a = bad; po_add_r : forall a, nadd a bad = bad;
    po_sub_l : forall a, nsub bad a = bad; po_sub_r : forall a, nsub a bad = bad;
    po_mul_l : forall a, nmul bad a = bad; po_mul_r : forall a, nmul a bad = bad;
    po_opp : nopp bad = bad; po_exp : nexp bad = bad; po_div : forall a, ndiv a bad = bad;
    po_sum : forall u : list T, In bad u -> nsum u = bad;
    po_dot : forall u v : list T, length u = length v -> In bad u \/ In bad v -> ndot u v = bad }.
  (** the numbers in a target, an output or an error of the network *)
  Definition entries (v : val T) : list T := match v with VNum a => [a] | VArr l => l end.
  Definition all_bad (bad : T) (v : list T) : Prop := Forall (fun a => a = bad) v.
  (** every weight of every hidden layer is [bad] *)
  Definition lost (bad : T) (n : net T) : Prop := Forall (fun l => Forall (all_bad bad) (l_w l)) (m_layers n).
  (** the network after a list of calls, with any arguments *)
  Definition after (ps : list mop) (n : net T) : net T := fold_left (fun m p => mexec p m) ps n.
End Spec.

Section Props.
  Context {T : Type} {NT : Num T}.
  Notation vec := (list T).
  Notation mat := (list (list T)).
  Notation net := (net T).
  Notation layer := (layer T).
  Notation val := (val T).
  Variable bad : T.
  Hypothesis HB : passed_on bad.

  Lemma all_bad_repeat k : all_bad bad (repeat bad k).
  Proof. induction k; constructor; auto. Qed.
  Lemma all_bad_in v : all_bad bad v -> 0 < length v -> In bad v.
  Proof. intros H Hl. destruct v as [|a v]; [cbn in Hl; lia|]. left. exact (Forall_inv H). Qed.
  Lemma act_bad f : act f bad = bad.
  Proof.
    destruct HB. destruct f; cbn [act].
    - rewrite po_opp0, po_exp0, po_add_r0. apply po_div0.
    - rewrite po_mul_r0, po_exp0, po_add_r0, po_div0. apply po_sub_l0.
  Qed.
  Lemma prod_in (u v : vec) : length u = length v -> In bad u \/ In bad v -> In bad (map2 nmul u v).
  Proof.
    destruct HB. revert v. induction u as [|a u IH]; intros [|b v] Hl H; try discriminate; [destruct H as [H|H]; exact H|].
    injection Hl as Hl. cbn [map2]. destruct H as [[H|H]|[H|H]].
    - left. rewrite H. apply po_mul_l0.
    - right. apply IH; auto.
    - left. rewrite H. apply po_mul_r0.
    - right. apply IH; auto.
  Qed.
  Lemma row_bad (row x : vec) : length row = length x -> In bad row \/ In bad x -> nsum (map2 nmul row x) = bad.
  Proof. intros Hl H. apply (po_sum _ HB). apply prod_in; auto. Qed.

  (** *** the forward pass *)
  Lemma reach_pos sizes k o n : net_reach sizes k o n -> 0 < k /\ Forall (fun s => 0 < s) sizes.
  Proof.
    induction 1 as [rng1 rng f mu n Hr Hn|n p H IH]; [|exact IH].
    unfold new_net in Hn. destruct (rev sizes) as [|s r] eqn:Er; [discriminate|].
    unfold inv_sqrt in Hn at 1. destruct (Nat.eqb_spec s 0) as [|Hs]; [discriminate|]. cbn [rbind] in Hn.
    destruct (match mu with MuAuto => _ | MuNum a => _ | MuBad => _ end); [|discriminate]. cbn [rbind] in Hn.
    destruct (new_layers rng 1 sizes k f mu) as [ls|] eqn:El; [|discriminate]. clear Hn.
    assert (G : forall sizes i k ls, new_layers rng i sizes k f mu = Ok ls -> sizes <> [] -> 0 < last sizes 0 -> 0 < k /\ Forall (fun s => 0 < s) sizes).
    { clear. induction sizes as [|a sizes IH]; intros i k ls H Hne Hl; [contradiction|].
      cbn [new_layers] in H. unfold new_layer, inv_sqrt in H. destruct (Nat.eqb_spec k 0) as [|Hk]; [discriminate|]. cbn [rbind] in H.
      destruct (new_layers rng (S i) sizes a f mu) as [ls'|] eqn:E; [|discriminate].
      split; [lia|]. destruct sizes as [|b sizes]; [constructor; [exact Hl|constructor]|].
      destruct (IH (S i) a ls' E ltac:(discriminate) Hl) as (H1 & H2). constructor; assumption. }
    apply (G sizes 1 k ls El); [intros ->; discriminate|].
    rewrite (rev_last sizes s r 0 Er). lia.
  Qed.
  Lemma hidden_in sizes : forall ls k x, ls_ok k sizes ls -> Forall (fun s => 0 < s) sizes -> length x = k -> In bad x ->
    In bad (hidden (map layer_par ls) x).
  Proof.
    induction sizes as [|s sizes IH]; intros [|l ls] k x H Hp Hx Hin; simpl in H; try contradiction; [exact Hin|].
    destruct H as (H1 & (H2 & H2') & H3 & H4). cbn [map hidden layer_par].
    apply (IH ls s); auto; [exact (Forall_inv_tail Hp)|rewrite map_length; exact H2|].
    pose proof (Forall_inv Hp) as Hs. cbn beta in Hs. destruct (l_w l) as [|row rows]; [cbn in H2; lia|].
    left. rewrite row_bad; [apply act_bad| |right; right; exact Hin].
    pose proof (Forall_inv H2') as Hr. cbn beta in Hr. cbn [length]. lia.
  Qed.
  Lemma hidden_lost sizes k ls x : ls_ok k sizes ls -> Forall (fun s => 0 < s) sizes -> length x = k -> sizes <> [] ->
    Forall (fun l => Forall (all_bad bad) (l_w l)) ls -> In bad (hidden (map layer_par ls) x).
  Proof.
    destruct sizes as [|s sizes]; [contradiction|]. destruct ls as [|l ls]; intros H Hp Hx _ Hb; simpl in H; try contradiction.
    destruct H as (H1 & (H2 & H2') & H3 & H4). cbn [map hidden layer_par].
    apply (hidden_in sizes ls s); auto; [exact (Forall_inv_tail Hp)|rewrite map_length; exact H2|].
    pose proof (Forall_inv Hp) as Hs. cbn beta in Hs. pose proof (Forall_inv Hb) as Hw. cbn beta in Hw.
    destruct (l_w l) as [|row rows]; [cbn in H2; lia|]. left. pose proof (Forall_inv H2') as Hr. cbn beta in Hr.
    rewrite row_bad; [apply act_bad|cbn [length]; lia|]. left. apply all_bad_in; [exact (Forall_inv Hw)|lia].
  Qed.
  Lemma forward_bad sizes k o n x : net_ok sizes k o n -> length x = k -> In bad (hidden (map layer_par (m_layers n)) x) ->
    all_bad bad (entries (forward n x)).
  Proof.
    intros (H1 & H2 & H3 & H4 & H5 & H6) Hx Hin. unfold forward. set (h := hidden _ x) in *.
    assert (Hh : length h = last sizes 0).
    { destruct (predict_layers_ok sizes (m_layers n) k x H4 Hx) as (_ & P & _). fold h in P. rewrite P.
      destruct sizes as [|a r]; [contradiction|]. apply last_indep. }
    destruct (m_w n) as [w|W]; cbn [entries].
    - constructor; [|constructor]. apply (po_dot _ HB); [cbn [length]; lia|]. right; right; exact Hin.
    - destruct H6 as (_ & _ & H6). apply Forall_map. eapply Forall_impl; [|exact H6]. intros row Hr. cbn beta in Hr.
      apply row_bad; [cbn [length]; lia|]. right; right; exact Hin.
  Qed.

  (** *** the backward pass *)
  Lemma scale_outer mu (el x : vec) : all_bad bad el -> Forall (all_bad bad) (mscale mu (outer el x)).
  Proof.
    intros H. unfold mscale, outer. apply Forall_map, Forall_map. eapply Forall_impl; [|exact H]. intros a ->.
    unfold vscale, all_bad. apply Forall_map, Forall_map. apply Forall_forall. intros b _.
    rewrite (po_mul_l _ HB). apply (po_mul_r _ HB).
  Qed.
  Lemma add_rows_r (W D : mat) : Forall (all_bad bad) D -> Forall (all_bad bad) (map2 (map2 nadd) W D).
  Proof.
    intros H. revert W. induction H as [|r D Hr H IH]; intros [|w W]; cbn [map2]; try constructor; [|apply IH].
    clear - Hr HB. revert w. induction Hr as [|a r -> Hr IH]; intros [|b w]; cbn [map2]; constructor; [apply (po_add_r _ HB)|apply IH].
  Qed.
  Lemma add_row_l (w : vec) : all_bad bad w -> forall r, all_bad bad (map2 nadd w r).
  Proof. induction 1 as [|a w -> Hw IH]; intros [|b r]; cbn [map2]; constructor; [apply (po_add_l _ HB)|apply IH]. Qed.
  Lemma add_rows_l (W : mat) : Forall (all_bad bad) W -> forall D, Forall (all_bad bad) (map2 (map2 nadd) W D).
  Proof. induction 1 as [|w W Hw H IH]; intros [|r D]; cbn [map2]; constructor; [apply add_row_l; exact Hw|apply IH]. Qed.

  Lemma error_bad s k w e (l : layer) : l_n l = k -> msh s (k + 1) (l_w l) -> length (l_y l) = s -> handed s w e -> In bad (entries e) ->
    exists el, layer_error w e l = Ok el /\ length el = s /\ all_bad bad el.
  Proof.
    intros Hn (Hw & _) Hy Hh Hin. destruct w as [wv|wm]; cbn [layer_error] in *.
    - destruct Hh as (Hl & He). destruct e as [a|]; [|contradiction]. destruct Hin as [Ha|[]]. subst a. cbn [mul_val rbind]. unfold bc_mul.
      rewrite bc_same by (rewrite !map_length; lia). eexists; split; [reflexivity|]. split; [rewrite map2_len, !map_length; lia|].
      generalize (map (act_der (l_f l)) (l_y l)). clear - HB. intros u. revert wv.
      induction u as [|a u IH]; intros [|b wv]; cbn [map map2]; constructor; [|apply IH].
      rewrite (po_mul_r _ HB). apply (po_mul_l _ HB).
    - destruct Hh as (q & (Hq & Hq') & He). destruct e as [|ev]; [contradiction|]. cbn [entries] in Hin. unfold vmdot.
      replace (length ev =? length wm) with true by (symmetry; apply Nat.eqb_eq; lia). cbn [rbind]. unfold bc_mul.
      rewrite bc_same by (rewrite !map_length, seq_length; lia).
      eexists; split; [reflexivity|]. split; [rewrite map2_len, !map_length, seq_length; lia|].
      assert (G : forall (g : val -> nat) (f : nat -> T) u js, (forall j, f j = bad) -> all_bad bad (map2 nmul u (map f js))).
      { intros _ f u js Hf. revert js. induction u as [|a u IH]; intros [|j js]; cbn [map map2]; constructor; [|apply IH].
        rewrite Hf. apply (po_mul_r _ HB). }
      apply (G (fun _ => 0)). intros j. apply (po_dot _ HB); [unfold column; rewrite map_length; lia|left; exact Hin].
  Qed.
  Lemma layers_bad sizes : forall ls k w e, ls_ok k sizes ls -> Forall (fun s => 0 < s) sizes -> Forall2 (fun s l => length (l_y l) = s) sizes ls ->
    handed (last sizes k) w e -> In bad (entries e) ->
    Forall (fun l => Forall (all_bad bad) (l_w l)) (fst (update_layers ls w e)) /\
    exists w' e', snd (update_layers ls w e) = Ok (w', e') /\ In bad (entries e').
  Proof.
    induction sizes as [|s sizes IH]; intros [|l ls] k w e H Hp Hy Hh Hin; simpl in H; try contradiction.
    - split; [constructor|]. exists w, e. split; [reflexivity|exact Hin].
    - destruct H as (H1 & H2 & H3 & H4). inversion Hy as [|? ? ? ? Hy1 Hy2]; subst s. set (s := length (l_y l)) in *. cbn [update_layers].
      assert (Hh' : handed (last sizes s) w e).
      { replace (last sizes s) with (last (s :: sizes) k); auto. destruct sizes as [|a r]; auto. exact (last_indep r a _ _). }
      destruct (IH ls s w e H4 (Forall_inv_tail Hp) Hy2 Hh' Hin) as (I1 & w1 & e1 & I2 & I3).
      destruct (update_layers_ok sizes ls s w e H4 Hy2 Hh') as (w1' & e1' & J1 & J2 & _). rewrite I2 in J1.
      assert (Hpe : (w1, e1) = (w1', e1')) by congruence. apply pair_equal_spec in Hpe as (<- & <-).
      destruct (update_layers ls w e) as [ls' r]. cbn [fst snd] in I1, I2. subst r.
      destruct (error_bad s k w1 e1 l H1 H2 eq_refl J2 I3) as (el & E1 & E2 & E3).
      unfold layer_update. rewrite E1. pose proof H2 as (H2l & _). rewrite iadd2_same by (rewrite outer_len; lia). cbn [fst snd]. split.
      + constructor; [|exact I1]. cbn [l_w]. apply add_rows_r, scale_outer, E3.
      + do 2 eexists. split; [reflexivity|]. cbn [entries]. apply all_bad_in; [exact E3|]. pose proof (Forall_inv Hp) as Hs. cbn beta in Hs. lia.
  Qed.

  Lemma minus_bad o (a b : val) : vlen a o -> vlen b o -> 0 < o -> In bad (entries a) \/ all_bad bad (entries b) -> In bad (entries (minus a b)).
  Proof.
    intros Ha Hb Ho H. destruct a as [a|u], b as [b|v]; cbn [minus entries vlen] in *; try (destruct Ha; destruct Hb; lia || congruence); try (destruct Hb; congruence); try (destruct Ha; congruence).
    - destruct H as [[<-|[]]|H]; left; [apply (po_sub_l _ HB)|]. rewrite (Forall_inv H). apply (po_sub_r _ HB).
    - destruct Ha as (_ & Ha), Hb as (_ & Hb). assert (Hl : length u = length v) by lia. destruct H as [H|H].
      + clear - H Hl HB. revert v Hl. induction u as [|a u IH]; intros [|b v] Hl; try discriminate; [destruct H|]. cbn [map2].
        destruct H as [->|H]; [left; apply (po_sub_l _ HB)|right; apply IH; auto].
      + destruct u as [|a u]; [cbn in Ha; lia|]. destruct v as [|b v]; [discriminate|]. left. rewrite (Forall_inv H). apply (po_sub_r _ HB).
  Qed.

  Lemma update_bad sizes k o d n : net_ok sizes k o n -> Forall (fun s => 0 < s) sizes -> net_ready sizes o n -> vlen d o ->
    In bad (entries (minus d (m_y n))) -> lost bad (fst (net_update d n)).
  Proof.
    intros (H1 & H2 & H3 & H4 & H5 & H6) Hp (R1 & R2) Hd Hin. unfold net_update.
    destruct (val_sub_minus o d (m_y n) Hd R2) as (-> & He). set (e := minus d (m_y n)) in *.
    pose proof (starts_one_len _ _ H5) as Hx.
    assert (Hlast : last sizes k = last sizes 0) by (destruct sizes as [|s0 sizes]; [contradiction|]; apply last_indep).
    assert (Ho : exists w' wold, out_step (m_mu n) e (m_x n) (m_w n) = Ok (w', wold) /\ handed (last sizes k) wold e).
    { unfold out_step. destruct (m_w n) as [w|W].
      - destruct H6 as (H6 & H7). destruct e as [a|v]; [|destruct He; contradiction]. cbn [rbind].
        unfold iadd1. replace (length _ =? length w) with true by (symmetry; apply Nat.eqb_eq; rewrite map_length; lia).
        eexists _, _. split; [reflexivity|]. simpl. split; auto. rewrite Hlast. destruct w; simpl in *; lia.
      - destruct H6 as (H6 & H7 & H8). destruct e as [a|v]; [simpl in He; contradiction|]. destruct He as (_ & He). cbn [val_list].
        rewrite iadd2_same by (rewrite outer_len; lia). eexists _, _. split; [reflexivity|]. simpl. exists o. split; auto.
        split; [rewrite map_length; auto|]. rewrite Forall_map. eapply Forall_impl; [|exact H8].
        intros a Ha; simpl in Ha. rewrite Hlast. destruct a; simpl in *; lia. }
    destruct Ho as (w' & wold & -> & Hh).
    destruct (layers_bad sizes (m_layers n) k wold e H4 Hp R1 Hh Hin) as (L & _).
    destruct (update_layers (m_layers n) wold e) as [ls r]. exact L.
  Qed.

  (** *** nothing brings the weights back *)
  Lemma lost_params n n' : params n = params n' -> lost bad n -> lost bad n'.
  Proof.
    unfold params, lost. intros E H. injection E as _ _ _ _ E. revert E H. generalize (m_layers n') (m_layers n). clear.
    intros ls' ls. revert ls'. induction ls as [|l ls IH]; intros [|l' ls'] E H; try discriminate; [constructor|].
    cbn [map] in E. injection E as _ _ E1 _ E2. constructor; [|apply IH; [exact E2|exact (Forall_inv_tail H)]].
    pose proof (Forall_inv H) as H0. cbn beta in H0. rewrite <- E1. exact H0.
  Qed.
  Lemma update_lost d n : lost bad n -> lost bad (fst (net_update d n)).
  Proof.
    intros H. unfold net_update. destruct (val_sub d (m_y n)) as [e|]; auto. destruct (out_step _ _ _ _) as [[w' wold]|]; auto.
    unfold lost in *. assert (G : forall ls w e, Forall (fun l : layer => Forall (all_bad bad) (l_w l)) ls ->
      Forall (fun l : layer => Forall (all_bad bad) (l_w l)) (fst (update_layers ls w e))).
    { clear - HB. induction ls as [|l ls IH]; intros w e H; [constructor|]. cbn [update_layers]. specialize (IH w e (Forall_inv_tail H)).
      pose proof (Forall_inv H) as H0. cbn beta in H0.
      destruct (update_layers ls w e) as [ls' [[w' e']|x]]; cbn [fst] in IH; [|constructor; auto].
      unfold layer_update. destruct (layer_error w' e' l) as [el|]; [|constructor; auto].
      destruct (iadd2 (l_w l) _) as [w2|] eqn:E; cbn [fst]; [|constructor; auto]. constructor; [|exact IH]. cbn [l_w].
      unfold iadd2 in E. destruct (length _ =? length (l_w l)); [injection E as <-; apply add_rows_l, H0|].
      destruct (mscale _ _) as [|r []]; try discriminate. injection E as <-. apply Forall_map. eapply Forall_impl; [|exact H0].
      intros a Ha. apply add_row_l, Ha. }
    specialize (G (m_layers n) wold e H). destruct (update_layers (m_layers n) wold e) as [ls r]. exact G.
  Qed.
  Lemma epoch_lost data : forall n, lost bad n -> lost bad (fst (epoch_loop data n)).
  Proof.
    induction data as [|[x d] data IH]; intros n H; [exact H|]. cbn [epoch_loop]. unfold bind.
    pose proof (lost_params _ _ (eq_sym (net_predict_params x n)) H) as Hp. destruct (net_predict x n) as [n1' [y|]]; auto. cbn [fst] in Hp.
    pose proof (update_lost d n1' Hp) as Hu. destruct (net_update d n1') as [n2' [e|]]; cbn [fst] in *; auto.
    specialize (IH n2' Hu). destruct (epoch_loop data n2') as [n3 [es|]]; exact IH.
  Qed.
  Lemma epochs_lost data : forall ep i e ms n, lost bad n -> lost bad (fst (epochs_loop ep i data e ms n)).
  Proof.
    induction ep as [|ep IH]; intros i e ms n H; [exact H|]. cbn [epochs_loop]. unfold bind.
    pose proof (epoch_lost data n H) as Hp. destruct (epoch_loop data n) as [n' [es|]]; cbn [fst] in *; auto.
  Qed.
  Lemma call_lost p n : lost bad n -> lost bad (mexec p n).
  Proof.
    intros H. destruct p as [x|d|x d ep sh|x|x d]; cbn [mexec].
    - exact (lost_params _ _ (eq_sym (net_predict_params x n)) H).
    - apply update_lost, H.
    - unfold net_train. destruct (check_data x d n); auto. apply epochs_lost, H.
    - exact (lost_params _ _ (eq_sym (net_run_params x n)) H).
    - exact (lost_params _ _ (eq_sym (net_test_params x d n)) H).
  Qed.
  Lemma after_lost ps : forall n, lost bad n -> lost bad (after ps n).
  Proof. unfold after. induction ps as [|p ps IH]; intros n H; [exact H|]. cbn [fold_left]. apply IH, call_lost, H. Qed.
  Lemma after_reach sizes k o ps : forall n, net_reach sizes k o n -> net_reach sizes k o (after ps n).
  Proof. unfold after. induction ps as [|p ps IH]; intros n H; [exact H|]. cbn [fold_left]. apply IH, reach_mop, H. Qed.

  (** *** C80 *)
  (** a bad input makes every output bad *)
  Theorem C80_input : forall sizes n_input outputs n x, net_reach sizes n_input outputs n -> length x = n_input -> In bad x ->
    exists y, snd (net_predict x n) = Ok y /\ all_bad bad (entries y).
  Proof.
    intros sizes k o n x Hr Hx Hin. destruct (reach_pos _ _ _ _ Hr) as (_ & Hp). apply net_reach_ok in Hr.
    destruct (net_predict_ok sizes k o x n Hr Hx) as (P1 & _). exists (forward n x). split; [exact P1|].
    apply (forward_bad sizes k o); auto. destruct Hr as (_ & _ & _ & H4 & _). apply (hidden_in sizes (m_layers n) k); auto.
  Qed.

  (** one learning step with a bad input, a bad target, or a bad output destroys every weight of every hidden layer *)
  Theorem C80_one_bad_sample : forall sizes n_input outputs n x d, net_reach sizes n_input outputs n -> 0 < outputs ->
    length x = n_input -> vlen d outputs -> In bad x \/ In bad (entries d) \/ all_bad bad (entries (forward n x)) ->
    lost bad (fst (net_update d (fst (net_predict x n)))).
  Proof.
    intros sizes k o n x d Hr Ho Hx Hd Hin. destruct (reach_pos _ _ _ _ Hr) as (_ & Hp). apply net_reach_ok in Hr.
    destruct (net_predict_ok sizes k o x n Hr Hx) as (P1 & P2 & P3 & P4).
    apply (update_bad sizes k o); auto; [apply net_predict_inv, Hr|]. rewrite P4. apply (minus_bad o); auto.
    destruct Hin as [Hin|[Hin|Hin]]; [|left; exact Hin|right; exact Hin]. right.
    apply (forward_bad sizes k o); auto. destruct Hr as (_ & _ & _ & H4 & _). apply (hidden_in sizes (m_layers n) k); auto.
  Qed.

  (** from then on every output is bad, whatever is done with the network: predict, update, train with any data, run, test *)
  Theorem C80_forever : forall sizes n_input outputs n ps, net_reach sizes n_input outputs n -> lost bad n ->
    lost bad (after ps n) /\
    (forall x, length x = n_input -> exists y, snd (net_predict x (after ps n)) = Ok y /\ all_bad bad (entries y)) /\
    (forall xs, rows_of n_input xs -> exists ys, snd (net_run xs (after ps n)) = Ok ys /\ Forall (fun y => all_bad bad (entries y)) ys).
  Proof.
    intros sizes k o n ps Hr Hl. apply (after_lost ps) in Hl. apply (after_reach _ _ _ ps) in Hr. revert Hr Hl.
    generalize (after ps n). clear n ps. intros n Hr Hl. destruct (reach_pos _ _ _ _ Hr) as (_ & Hp). apply net_reach_ok in Hr. split; [exact Hl|].
    assert (G : forall x, length x = k -> all_bad bad (entries (forward n x))).
    { intros x Hx. apply (forward_bad sizes k o); auto. destruct Hr as (_ & _ & H3 & H4 & _). apply (hidden_lost sizes k); auto. }
    split.
    - intros x Hx. destruct (net_predict_ok sizes k o x n Hr Hx) as (P1 & _). exists (forward n x). auto.
    - intros xs Hxs. rewrite (net_run_ok sizes k o xs n Hr Hxs). eexists; split; [reflexivity|].
      apply Forall_map. unfold rows_of in Hxs. eapply Forall_impl; [|exact Hxs]. auto.
  Qed.

  Lemma learned_lost l : forall n, lost bad n -> lost bad (learned n l).
  Proof.
    unfold learned. induction l as [|s l IH]; intros n H; [exact H|]. cbn [fold_left]. apply IH. unfold learn. apply update_lost.
    exact (lost_params _ _ (eq_sym (net_predict_params (fst s) n)) H).
  Qed.
  Lemma learned_bad sizes k o l : forall n, net_ok sizes k o n -> Forall (fun s => 0 < s) sizes -> 0 < o -> Forall (sample_ok k o) l ->
    Exists (fun s => In bad (fst s) \/ In bad (entries (snd s))) l -> lost bad (learned n l).
  Proof.
    induction l as [|s l IH]; intros n Hn Hp Ho Hl He; [inversion He|]. unfold learned. cbn [fold_left].
    pose proof (Forall_inv Hl) as (Hx & Hd). apply Exists_cons in He as [Hb|Hb].
    - apply learned_lost. unfold learn. destruct (net_predict_ok sizes k o (fst s) n Hn Hx) as (P1 & P2 & P3 & P4).
      apply (update_bad sizes k o); auto; [apply net_predict_inv, Hn|]. rewrite P4. apply (minus_bad o); auto.
      destruct Hb as [Hb|Hb]; [|left; exact Hb]. right. apply (forward_bad sizes k o); auto. destruct Hn as (_ & _ & _ & H4 & _).
      apply (hidden_in sizes (m_layers n) k); auto.
    - apply IH; auto; [|exact (Forall_inv_tail Hl)]. unfold learn. apply net_update_inv, net_predict_inv, Hn.
  Qed.

  (** train: one bad number among the inputs or targets, in any position, and the network comes out of train destroyed *)
  Theorem C80_train : forall sizes n_input outputs n x d ds epochs shuffle,
    net_reach sizes n_input outputs n -> 0 < outputs -> rows_of n_input x -> fits outputs (length x) d ds -> 0 < epochs ->
    (forall idx, shuffle = Some idx -> Permutation idx (seq 0 (length x))) ->
    (exists i, i < length x /\ (In bad (nth i x []) \/ In bad (entries (nth i ds (VNum n0))))) ->
    exists n' e mse, net_train x d epochs shuffle n = (n', Ok (e, mse)) /\ lost bad n'.
  Proof.
    intros sizes k o n x d ds ep sh Hr Ho Hx Hf Hep Hs (i & Hi & Hb).
    assert (Hne : x <> []) by (destruct x; [cbn in Hi; lia|discriminate]).
    destruct (C47_train sizes k o n x d ds ep sh Hr Hx Hne Hf Hs) as (data & HP & _ & e & mse & E & _).
    exists (learned n (stream ep data)), e, mse. split; [exact E|]. destruct (reach_pos _ _ _ _ Hr) as (_ & Hp).
    pose proof (net_reach_ok _ _ _ _ Hr) as Hok. destruct (check_ok sizes k o n x d ds Hok Hx Hne Hf) as (_ & C2 & C3).
    assert (HF : Forall (sample_ok k o) data).
    { eapply Permutation_Forall; [apply Permutation_sym; exact HP|]. apply Forall_forall. intros [a b] Hab.
      pose proof (in_combine_l _ _ _ _ Hab) as Ha. pose proof (in_combine_r _ _ _ _ Hab) as Hb'.
      unfold rows_of in Hx. rewrite Forall_forall in Hx, C3. split; simpl; auto. }
    apply (learned_bad sizes k o); auto.
    - unfold stream. apply Forall_concat. apply Forall_forall. intros l Hl. apply repeat_spec in Hl. subst l. exact HF.
    - destruct ep as [|ep]; [lia|]. rewrite stream_S. apply Exists_app. left. apply Exists_exists.
      exists (nth i (combine x ds) ([], VNum n0)). split.
      + eapply Permutation_in; [apply Permutation_sym; exact HP|]. apply nth_In. rewrite combine_length. lia.
      + rewrite combine_nth by (symmetry; exact C2). exact Hb.
  Qed.
End Props.
