(** C71: starting over with a used filter (clear_memory, init_weights), any arithmetic. *)
From Coq Require Import QArith.
From Verif Require Import Py Num NumQ Numpy Filters Registry Spec StructProofs RunProofs Reach KeepProofs PropsRun
  Steps History PropsOCNLMS PropsWarm.
Open Scope nat_scope.

(** the same keyword arguments, but w=w0 (an array or a string) *)
Definition kw_with_w {T} (kw : kwargs T) (w0 : wspec T) : kwargs T :=
  mkKw (kw_n kw) (kw_mu kw) (Some w0) (kw_eps kw) (kw_ro kw) (kw_a kw) (kw_lambd kw) (kw_alpha kw)
       (kw_order kw) (kw_ifc kw) (kw_mem kw) (kw_other kw).

Section Reset.
  Context {T : Type} {NT : Num T}.
  Notation vec := (list T).
  Notation obj := (obj T).

  (** a new filter of the same class, with w=w0 *)
  Lemma new_again rng rng' k (kw : kwargs T) n (o : obj) w0 v :
    kw_n kw = Some (Z.of_nat n) -> new_filter rng k kw = Ok o -> init_weights rng' w0 (Z.of_nat n) = Ok v ->
    exists g, new_filter rng' k (kw_with_w kw w0) = Ok g /\ o_w g = v /\ o_n g = n /\ o_mu g = o_mu o /\ o_ext g = o_ext o.
  Proof.
    intros Hn Hnew Hv. revert Hnew. unfold new_filter. cbn [kw_with_w kw_other kw_n kw_mu kw_w].
    destruct (kw_other kw); [discriminate|].
    change (kw_given (kw_with_w kw w0)) with (kw_given kw).
    destruct (existsb _ _); [discriminate|]. rewrite Hn.
    match goal with |- match ?m with _ => _ end = _ -> _ => destruct m as [mu|]; [|discriminate] end.
    unfold init_base. destruct (_ =? -1)%Z; [discriminate|]. cbn [opt]. rewrite Hv. cbn [rmap rbind].
    replace (init_ext k (kw_with_w kw w0) (Z.to_nat (Z.of_nat n)) mu)
      with (init_ext k kw (Z.to_nat (Z.of_nat n)) mu) by (destruct k; reflexivity).
    destruct (init_weights rng _ _) as [w1|]; [|discriminate]. cbn [rmap rbind].
    destruct (init_ext k kw _ mu) as [e|] eqn:E; [|discriminate]. cbn [rmap]. intros [= <-].
    eexists. split; [reflexivity|]. unfold set_ext. cbn [o_w o_n o_mu o_ext]. rewrite Nat2Z.id. repeat split.
  Qed.

  Lemma new_ext rng k (kw : kwargs T) n (o : obj) : kw_n kw = Some (Z.of_nat n) -> new_filter rng k kw = Ok o ->
    exists mu, init_ext k kw n mu = Ok (o_ext o).
  Proof.
    intros Hn. unfold new_filter. destruct (kw_other kw); [discriminate|].
    destruct (existsb _ _); [discriminate|]. rewrite Hn.
    match goal with |- match ?m with _ => _ end = _ -> _ => destruct m as [mu|]; [|discriminate] end.
    destruct (init_base _ _ _ _ _) as [o0|]; cbn [rbind rmap]; [|discriminate]. rewrite Nat2Z.id.
    destruct (init_ext k kw n mu) as [e|] eqn:E; [|discriminate]. cbn [rmap]. intros H.
    exists mu. rewrite E. f_equal. assert (H' : set_ext e o0 = o) by congruence. rewrite <- H'. reflexivity.
  Qed.
  Lemma memoryless_plain rng k (kw : kwargs T) n (o : obj) : memoryless k = true -> kw_n kw = Some (Z.of_nat n) ->
    new_filter rng k kw = Ok o -> plain (o_ext o) = true.
  Proof.
    intros Hk Hn Hnew. destruct (new_ext rng k kw n o Hn Hnew) as (mu & H). revert H.
    destruct k; try discriminate Hk; cbn [init_ext]; intros H; injection H as <-; reflexivity.
  Qed.
  Lemma new_OCNLMS rng (kw : kwargs T) n (o : obj) : kw_n kw = Some (Z.of_nat n) -> new_filter rng KOCNLMS kw = Ok o ->
    exists eps, let mem := match kw_mem kw with Some m => m | None => 100 end in
      o_ext o = XOCNLMS eps mem true (zeros2 mem n) (zeros mem) 0.
  Proof.
    intros Hn Hnew. destruct (new_ext rng KOCNLMS kw n o Hn Hnew) as (mu & H). cbn [init_ext] in H. eexists.
    cbv zeta. unfold opt in H.
    match type of H with Ok ?a = Ok ?b => assert (H' : a = b) by congruence end. symmetry. exact H'.
  Qed.
  Lemma init_weights_given rng' n (v : vec) : length v = n -> init_weights rng' (WVec v) (Z.of_nat n) = Ok v.
  Proof. intros H. unfold init_weights. rewrite H, Z.eqb_refl. reflexivity. Qed.

  Lemma oc_script n eps mem mu (o : obj) ps : wf n o -> oc_memory mem n eps mu [] o -> Forall (op_shape n) ps ->
    exists em mx md idx, o_ext (exec_all ps o) = XOCNLMS eps mem em mx md idx /\ o_mu (exec_all ps o) = mu.
  Proof.
    intros Hwf H0 HF.
    destruct (hist_exec_all n (oc_memory mem n eps mu)) with (ps := ps) (s := @nil (event T)) (o := o) as (H1 & H2); auto.
    - intros s o1 d x. apply oc_memory_learn.
    - intros s o1 x. apply oc_memory_predict.
    - destruct H1 as (Hmu & H1).
      destruct (o_ext (exec_all ps o)) as [| | | | | | | | | | | eps' mem' em mx md idx | | | |] eqn:E; try contradiction.
      destruct H1 as (-> & -> & _). do 4 eexists. split; [reflexivity|exact Hmu].
  Qed.

  (** *** C71.  Starting over.  After any history of well-shaped calls (successful or not), clear_memory() on an OCNLMS
      filter returns, keeps the weights, and makes the filter indistinguishable from a new one with the same keyword
      arguments and w set to the current weights: from then on the same answers to every script of calls. *)
  Theorem C71_clear_memory : forall rng rng' (kw : kwargs T) n (o : obj) ps,
    rng_ok rng -> sane_kw kw -> kw_n kw = Some (Z.of_nat n) -> new_filter rng KOCNLMS kw = Ok o ->
    Forall (op_shape n) ps ->
    let f := exec_all ps o in
    exists f' g, clear_memory f = (f', Ok tt) /\ o_w f' = o_w f /\
      new_filter rng' KOCNLMS (kw_restart kw (o_w f)) = Ok g /\ same_filter g f' /\
      forall qs, outcomes qs g = outcomes qs f' /\ same_filter (exec_all qs g) (exec_all qs f').
  Proof.
    intros rng rng' kw n o ps Hrng Hs Hn Hnew Hps f.
    assert (Hwf : wf n o) by exact (new_filter_wf rng KOCNLMS kw n o Hrng Hs Hn Hnew).
    assert (Hf : wf n f) by (apply script_wf; auto). destruct Hf as (Lf & Nf & _).
    destruct (oc_new rng kw n o Hs Hn Hnew) as (eps & H0).
    destruct (oc_script n eps _ (o_mu o) o ps Hwf H0 Hps) as (em & mx & md & idx & E & Emu). fold f in E, Emu.
    set (mem := match kw_mem kw with Some m => m | None => 100 end) in *.
    destruct (new_again rng rng' KOCNLMS kw n o (WVec (o_w f)) (o_w f) Hn Hnew (init_weights_given rng' n _ Lf))
      as (g & Hg & G1 & G2 & G3 & G4).
    destruct (new_OCNLMS rng kw n o Hn Hnew) as (eps' & Eo). cbv zeta in Eo. fold mem in Eo.
    destruct H0 as (_ & H0). rewrite Eo in H0. destruct H0 as (-> & _).
    set (f' := set_ext (XOCNLMS eps mem true (zeros2 mem (o_n f)) (zeros mem) 0) f).
    assert (Hsame : same_filter g f').
    { unfold f'. repeat split; cbn [set_ext o_w o_n o_mu o_ext]; congruence. }
    exists f', g. split.
    { unfold clear_memory, bind, get, modify. rewrite E. reflexivity. }
    split; [reflexivity|]. split; [exact Hg|]. split; [exact Hsame|]. intros qs. apply script_alike, Hsame.
  Qed.

  (** The method exists in that class only. *)
  Theorem C71_clear_memory_elsewhere : forall (o : obj), (forall eps mem em mx md i, o_ext o <> XOCNLMS eps mem em mx md i) ->
    clear_memory o = (o, Err AttributeError).
  Proof.
    intros o H. unfold clear_memory, bind, get. destruct (o_ext o) eqn:E; try reflexivity.
    exfalso. eapply H. reflexivity.
  Qed.

  (** f.w = f.init_weights(w0) for a class without other memory, and the same after clear_memory() for OCNLMS:
      whatever the history, the filter is as good as new. *)
  Theorem C71_new_weights : forall rng rng' k (kw : kwargs T) n (o : obj) ps w0 v,
    memoryless k = true \/ k = KOCNLMS ->
    rng_ok rng -> sane_kw kw -> kw_n kw = Some (Z.of_nat n) -> new_filter rng k kw = Ok o ->
    Forall (op_shape n) ps ->
    let f := exec_all ps o in
    snd (init_weights_method rng' w0 (-1) f) = Ok v ->
    let f' := set_w v (if memoryless k then f else fst (clear_memory f)) in
    exists g, new_filter rng' k (kw_with_w kw w0) = Ok g /\ same_filter g f' /\
      forall qs, outcomes qs g = outcomes qs f' /\ same_filter (exec_all qs g) (exec_all qs f').
  Proof.
    intros rng rng' k kw n o ps w0 v Hk Hrng Hs Hn Hnew Hps f Hv f'.
    assert (Hwf : wf n o) by exact (new_filter_wf rng k kw n o Hrng Hs Hn Hnew).
    assert (Hf : wf n f) by (apply script_wf; auto). destruct Hf as (Lf & Nf & _).
    unfold init_weights_method, bind, get, lift in Hv. cbn [snd] in Hv.
    change (-1 =? -1)%Z with true in Hv. cbv iota in Hv. rewrite Nf in Hv.
    assert (Hv' : init_weights rng' w0 (Z.of_nat n) = Ok v) by (destruct (init_weights _ _ _); exact Hv).
    destruct (new_again rng rng' k kw n o w0 v Hn Hnew Hv') as (g & Hg & G1 & G2 & G3 & G4).
    assert (Hsame : same_filter g f').
    { destruct (memoryless k) eqn:Em.
      - pose proof (memoryless_plain rng k kw n o Em Hn Hnew) as Hpl. destruct (script_ke ps o Hpl) as (F1 & F2).
        fold f in F1, F2. unfold f'. repeat split; cbn [set_w o_w o_n o_mu o_ext]; congruence.
      - destruct Hk as [Hk| ->]; [congruence|].
        destruct (C71_clear_memory rng rng' kw n o ps Hrng Hs Hn Hnew Hps) as (h & g' & Hc & _ & Hg' & (_ & S2 & S3 & S4) & _).
        fold f in Hc, Hg'. unfold f'. rewrite Hc. cbn [fst].
        destruct (new_again rng rng' KOCNLMS kw n o (WVec (o_w f)) (o_w f) Hn Hnew (init_weights_given rng' n _ Lf))
          as (g2 & Hg2 & _ & K2 & K3 & K4).
        change (kw_with_w kw (WVec (o_w f))) with (kw_restart kw (o_w f)) in Hg2.
        assert (g2 = g') by congruence. subst g2.
        repeat split; cbn [set_w o_w o_n o_mu o_ext]; congruence. }
    exists g. split; [exact Hg|]. split; [exact Hsame|]. intros qs. apply script_alike, Hsame.
  Qed.
End Reset.

(** *** Example: an OCNLMS filter over the rationals, used and then cleared; it has learned and remembers something
    before, and answers like a new filter after. *)
Definition oc_ps : list (@op Q) := [OpAdapt 1 [1; 2]; OpAdapt 3 [2; 1]; OpRun [1] [[1; 1]; [2; 3]]]%Q.
Definition oc_o : obj Q := get_ok obj0 (new_filter rng0 KOCNLMS (kw_st KOCNLMS)).
Example C71_hypotheses :
  rng_ok rng0 /\ sane_kw (kw_st KOCNLMS) /\ kw_n (kw_st KOCNLMS) = Some 2%Z /\
  new_filter rng0 KOCNLMS (kw_st KOCNLMS) = Ok oc_o /\ Forall (op_shape 2) oc_ps /\
  In (Err ValueError) (outcomes oc_ps oc_o) /\
  let f := exec_all oc_ps oc_o in
  o_w f <> o_w oc_o /\
  snd (predict [1; 1]%Q f) <> snd (predict [1; 1]%Q (fst (clear_memory f))) /\
  snd (init_weights_method rng0 (WStr "zeros") (-1) f) = Ok [0; 0]%Q.
Proof.
  split; [exact rng0_ok|]. split; [split; [intros m [= <-]; auto|discriminate]|]. split; [reflexivity|].
  split; [reflexivity|]. split; [repeat constructor|]. split; [vm_compute; auto|].
  cbv zeta. split; [vm_compute; discriminate|]. split; [vm_compute; discriminate|reflexivity].
Qed.
