(** Reachable filters satisfy the shape invariant; exec preserves it (any arithmetic). *)
From Coq Require Import QArith.
From Verif Require Import Py Num Numpy Filters Registry Spec StructProofs RunProofs.
Open Scope nat_scope.

Section S.
  Context {T : Type} {NT : Num T}.
  Notation vec := (list T).
  Notation mat := (list (list T)).
  Notation obj := (obj T).
  Notation ext := (ext T).

  Lemma init_weights_length rng (w : wspec T) n wv : rng_ok rng ->
    init_weights rng w (Z.of_nat n) = Ok wv -> length wv = n.
  Proof.
    intros Hrng; unfold init_weights; destruct w as [s|v].
    - replace (Z.of_nat n <? 0)%Z with false by (symmetry; apply Z.ltb_ge; lia).
      destruct (String.eqb s "random"); [|destruct (String.eqb s "zeros"); [|discriminate]];
        intros [= <-]; rewrite Nat2Z.id; [apply Hrng|apply zeros_length].
    - destruct (Z.eqb_spec (Z.of_nat (length v)) (Z.of_nat n)); [|discriminate].
      intros [= <-]; lia.
  Qed.

  Lemma init_base_wf rng n mu w (x : ext) o : rng_ok rng -> wf_ext n x ->
    init_base rng (Z.of_nat n) mu w x = Ok o -> wf n o.
  Proof.
    intros Hrng Hx; unfold init_base.
    replace (Z.of_nat n =? -1)%Z with false by (symmetry; apply Z.eqb_neq; lia).
    destruct (init_weights rng w (Z.of_nat n)) as [wv|] eqn:E; simpl; [|discriminate].
    intros [= <-]; repeat split; simpl; auto.
    - eapply init_weights_length; eauto.
    - apply Nat2Z.id.
  Qed.

  Lemma init_ext_wf k (kw : kwargs T) n mu x : sane_kw kw -> init_ext k kw n mu = Ok x -> wf_ext n x.
  Proof.
    intros (Hmem & Hord); unfold init_ext; destruct k; try (intros [= <-]; simpl; auto; fail).
    - (* AP *) intros [= <-]; cbn [wf_ext].
      assert (1 <= opt (kw_order kw) 5) by (destruct (kw_order kw); simpl; auto; lia).
      repeat split; auto; [apply zeros2_length | apply zeros2_rows | apply zeros_length].
    - intros [= <-]; simpl; apply zeros_length.
    - (* OCNLMS *) intros [= <-]; cbn [wf_ext].
      assert (1 <= opt (kw_mem kw) 100) by (destruct (kw_mem kw); cbn [opt]; auto; lia).
      repeat split; auto; [apply zeros2_length | apply zeros2_rows | apply zeros_length].
    - (* RLS *) destruct (neqb _ _); [discriminate|]. intros [= <-]; cbn [wf_ext].
      split; [rewrite mscale_length, identity_length; auto | apply mscale_rows, identity_rows].
    - intros [= <-]; simpl; split; apply zeros_length.
    - intros [= <-]; simpl; split; apply zeros_length.
    - intros [= <-]; simpl; apply zeros_length.
  Qed.

  Lemma new_filter_wf rng k (kw : kwargs T) n o : rng_ok rng -> sane_kw kw ->
    kw_n kw = Some (Z.of_nat n) -> new_filter rng k kw = Ok o -> wf n o.
  Proof.
    intros Hrng Hkw Hn; unfold new_filter.
    destruct (kw_other kw); [discriminate|].
    destruct (existsb _ _); [discriminate|].
    rewrite Hn.
    destruct (match kw_mu kw with Some _ => _ | None => _ end) as [mu|]; [|discriminate].
    destruct (init_base _ _ _ _ _) as [o0|] eqn:E0; simpl; [|discriminate].
    rewrite Nat2Z.id.
    destruct (init_ext k kw n mu) as [x|] eqn:Ex; simpl; [|discriminate].
    intros [= <-]. apply set_ext_wf; [|eapply init_ext_wf; eauto].
    eapply init_base_wf; [exact Hrng| |exact E0]. exact I.
  Qed.

  Lemma run_bad_length (d : vec) (x : mat) o : length d <> length x -> run d x o = (o, Err ValueError).
  Proof.
    intros Hl; unfold run. replace (length d =? length x) with false; [reflexivity|].
    symmetry; apply Nat.eqb_neq; auto.
  Qed.

  Lemma run_empty (o : obj) : run [] [] o = (o, Err IndexError).
  Proof. reflexivity. Qed.

  Lemma run_wf n d x (o : obj) : wf n o -> rowsl n x -> wf n (fst (run d x o)).
  Proof.
    intros Hwf Hr. destruct (Nat.eq_dec (length d) (length x)) as [Hl|Hl].
    - destruct x as [|x0 x'].
      + destruct d; [exact Hwf|discriminate].
      + destruct (run_eq n o d (x0 :: x')) as (h & -> & _); auto; [discriminate|].
        cbn [fst]; apply wf_set_hist.
        destruct (adapt_all_ok n d (x0 :: x') o Hwf Hr) as (o' & r & -> & H & _); exact H.
    - rewrite run_bad_length by assumption; exact Hwf.
  Qed.


  Lemma firstn_rows n (x : mat) k : rowsl n x -> rowsl n (firstn k x).
  Proof.
    intros H; revert k; induction H as [|r x Hr H IH]; intros [|k]; simpl; constructor; auto.
    apply IH.
  Qed.
  Lemma skipn_rows n (x : mat) k : rowsl n x -> rowsl n (skipn k x).
  Proof.
    intros H; revert k; induction H as [|r x Hr H IH]; intros [|k]; simpl; auto; constructor; auto.
  Qed.

  Lemma repeat_m_wf n k (m : M obj unit) o :
    (forall o, wf n o -> wf n (fst (m o))) -> wf n o -> wf n (fst (repeat_m k m o)).
  Proof.
    intros Hm; revert o; induction k as [|k IH]; intros o Ho; simpl; auto.
    unfold bind; specialize (Hm o Ho); destruct (m o) as [o' [[]|ex]]; simpl in *; auto.
  Qed.

  Lemma pretrained_wf n d x nt ep (o : obj) : wf n o -> rowsl n x -> wf n (fst (pretrained_run d x nt ep o)).
  Proof.
    intros Hwf Hr; unfold pretrained_run; unfold bind at 1.
    match goal with |- context [repeat_m ep ?m o] => pose proof (repeat_m_wf n ep m o) as Hrep end.
    destruct (repeat_m _ _ o) as [o1 [[]|ex]] eqn:E; cbn [fst] in *.
    - apply run_wf; [|apply skipn_rows; auto]. apply Hrep; auto.
      intros o2 H2; unfold bind. pose proof (run_wf n (slice_to d (ntrunc (nmul (nofnat (length d)) nt)))
        (slice_to x (ntrunc (nmul (nofnat (length d)) nt))) o2 H2) as H3.
      destruct (run _ _ o2) as [o3 [a|ex]]; apply H3, firstn_rows, Hr.
    - apply Hrep; auto.
      intros o2 H2; unfold bind. pose proof (run_wf n (slice_to d (ntrunc (nmul (nofnat (length d)) nt)))
        (slice_to x (ntrunc (nmul (nofnat (length d)) nt))) o2 H2) as H3.
      destruct (run _ _ o2) as [o3 [a|ex']]; apply H3, firstn_rows, Hr.
  Qed.

  Lemma exec_wf n p (o : obj) : wf n o -> op_shape n p -> wf n (exec p o).
  Proof.
    intros Hwf; destruct p as [x|d x|d x|d x nt ep]; simpl; intros Hs.
    - destruct (predict_ok _ _ _ Hwf Hs) as (o1 & y & -> & H & _); exact H.
    - destruct (adapt_ok _ o d x Hwf Hs) as (o1 & r & -> & H & _); exact H.
    - apply run_wf; auto.
    - apply pretrained_wf; auto.
  Qed.

  Lemma update_memory_x_wf n (o : obj) x : wf n o -> length x = n -> wf n (fst (update_memory_x x o)).
  Proof.
    intros Hwf Hl. unfold update_memory_x, bind, get. destruct (o_ext o) as [| | | | | | | | | | |eps mem em mx md idx| | | |] eqn:E; try exact Hwf.
    pose proof Hwf as (Hw & Hn & Hx). rewrite E in Hx. cbn [wf_ext] in Hx. destruct Hx as (H1 & H2 & H3 & H4 & H5).
    replace (idx <? length mx) with true by (symmetry; apply Nat.ltb_lt; lia).
    rewrite (nth_rows n) by (auto; lia). rewrite Hl, Nat.eqb_refl. cbn [ret modify fst]. apply set_ext_wf; [exact Hwf|].
    cbn [wf_ext]. rewrite set_nth_length. split; [lia|]. split; [lia|]. split; [apply set_nth_Forall; auto|]. split; lia.
  Qed.
  Lemma update_memory_d_wf n (o : obj) d : wf n o -> wf n (fst (update_memory_d d o)).
  Proof.
    intros Hwf. unfold update_memory_d, bind, get. destruct (o_ext o) as [| | | | | | | | | | |eps mem em mx md idx| | | |] eqn:E; try exact Hwf.
    pose proof Hwf as (Hw & Hn & Hx). rewrite E in Hx. cbn [wf_ext] in Hx. destruct Hx as (H1 & H2 & H3 & H4 & H5).
    destruct (_ <? _); [|exact Hwf]. cbn [modify fst]. apply set_ext_wf; [exact Hwf|].
    cbn [wf_ext]. rewrite set_nth_length. split; [lia|]. split; [lia|]. split; [exact H3|]. split; lia.
  Qed.
  Lemma read_memory_wf n (o : obj) : wf n o -> wf n (fst (read_memory o)).
  Proof.
    intros Hwf. destruct (o_ext o) as [| | | | | | | | | | |eps mem em mx md idx| | | |] eqn:E;
      try (unfold read_memory, bind, get; rewrite E; exact Hwf).
    destruct (read_memory_ok n o eps mem em mx md idx Hwf E) as (md' & mx' & em' & idx' & -> & _ & Hi). cbn [fst].
    pose proof Hwf as (Hw & Hn & Hx). rewrite E in Hx. cbn [wf_ext] in Hx. apply set_ext_wf; [exact Hwf|]. cbn [wf_ext]. tauto.
  Qed.
  Lemma clear_memory_wf n (o : obj) : wf n o -> wf n (fst (clear_memory o)).
  Proof.
    intros Hwf. unfold clear_memory, bind, get. destruct (o_ext o) as [| | | | | | | | | | |eps mem em mx md idx| | | |] eqn:E; try exact Hwf.
    pose proof Hwf as (Hw & Hn & Hx). rewrite E in Hx. cbn [wf_ext] in Hx. destruct Hx as (H1 & H2 & H3 & H4 & H5).
    cbn [modify fst]. apply set_ext_wf; [exact Hwf|]. cbn [wf_ext]. rewrite Hn. unfold zeros2, zeros. rewrite !repeat_length.
    split; [lia|]. split; [lia|]. split; [|split; lia]. apply Forall_forall. intros r Hr. apply repeat_spec in Hr. subst r. apply repeat_length.
  Qed.
  Lemma exec_call_wf n (o : obj) c : wf n o -> call_shape n c -> wf n (exec_call c o).
  Proof.
    intros Hwf Hs. destruct c; cbn [exec_call call_shape] in *.
    - destruct (is_AP o) eqn:Ea.
      + unfold is_AP in Ea. unfold learning_rule, bind, get. destruct (o_ext o); try discriminate Ea. exact Hwf.
      + destruct (learning_rule_ok n o e x Hwf Hs Ea) as [(o' & dw & -> & _ & H & _)|(-> & _)]; [exact H|exact Hwf].
    - apply clear_memory_wf; exact Hwf.
    - apply update_memory_x_wf; auto.
    - apply update_memory_d_wf; auto.
    - apply read_memory_wf; auto.
    - exact Hwf.
    - destruct Hwf as (_ & Hn & Hx). repeat split; auto.
    - apply set_ext_wf; [exact Hwf|]. destruct Hwf as (_ & _ & Hx). destruct (o_ext o), p; exact Hx.
  Qed.

  Theorem reachable_wf n (o : obj) : reachable n o -> wf n o.
  Proof.
    induction 1 as [rng k kw o Hrng Hkw Hn Ho | rng mu w o Hrng Ho | o p Hr IH Hs | o c Hr IH Hs].
    - eapply new_filter_wf; eauto.
    - eapply init_base_wf; eauto. exact I.
    - apply exec_wf; auto.
    - apply exec_call_wf; auto.
  Qed.
End S.
