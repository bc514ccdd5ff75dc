(** C52 (warm start) and the negative part of C51, any arithmetic / exact rationals. *)
From Coq Require Import QArith.
From Verif Require Import Py Num NumQ Numpy Filters Registry Spec StructProofs RunProofs Reach KeepProofs PropsRun.
Open Scope nat_scope.

(** the classes whose only memory is the weight vector *)
Definition memoryless (k : kind) : bool :=
  match k with
  | KLMS | KLMF | KSSLMS | KNLMS | KNLMF | KNSSLMS | KGMCC | KLlncosh => true
  | KAP | KGNGD | KOCNLMS | KRLS | KAng | KBenveniste | KMathews => false
  end.

(** the same keyword arguments, but w=v *)
Definition kw_restart {T} (kw : kwargs T) (v : list T) : kwargs T :=
  mkKw (kw_n kw) (kw_mu kw) (Some (WVec v)) (kw_eps kw) (kw_ro kw) (kw_a kw) (kw_lambd kw) (kw_alpha kw)
       (kw_order kw) (kw_ifc kw) (kw_mem kw) (kw_other kw).

Section W.
  Context {T : Type} {NT : Num T}.
  Notation vec := (list T).
  Notation mat := (list (list T)).
  Notation obj := (obj T).
  Notation ext := (ext T).

  (** *** filters that agree up to the recorded history cannot be told apart *)
  Lemma same_refl (o : obj) : same_filter o o.
  Proof. repeat split. Qed.
  Lemma same_hist h (a b : obj) : same_filter a b -> set_hist h a = set_hist h b.
  Proof. intros (H1 & H2 & H3 & H4). unfold set_hist. congruence. Qed.
  Lemma hist_same h (a b : obj) : set_hist h a = set_hist h b -> same_filter a b.
  Proof. unfold set_hist. intros [= H1 H2 H3 H4]. repeat split; assumption. Qed.

  Definition alike {A} (m : M obj A) : Prop :=
    forall a b, same_filter a b -> snd (m a) = snd (m b) /\ same_filter (fst (m a)) (fst (m b)).

  Lemma blind_alike {A} (m : M obj A) : blind m -> alike m.
  Proof.
    intros Hm a b H. pose proof (Hm a []) as Ha. pose proof (Hm b []) as Hb.
    rewrite (same_hist [] a b H), Hb in Ha. apply pair_equal_spec in Ha as (Ha & Hs).
    split; [auto|]. apply (hist_same []). auto.
  Qed.
  Lemma alike_bind {A B} (m : M obj A) (f : A -> M obj B) : alike m -> (forall a, alike (f a)) -> alike (bind m f).
  Proof.
    intros Hm Hf a b H. destruct (Hm a b H) as (E & H'). unfold bind.
    destruct (m a) as [sa [ra|xa]], (m b) as [sb [rb|xb]]; cbn [fst snd] in *; try discriminate.
    - injection E as ->. apply Hf; auto.
    - injection E as ->. auto.
  Qed.
  Lemma alike_reset {A} h (f : unit -> M obj A) : alike (bind (modify (set_hist h)) f).
  Proof. intros a b H. unfold bind, modify. rewrite (same_hist h a b H). split; [reflexivity|apply same_refl]. Qed.
  Lemma alike_run d x : alike (run d x).
  Proof.
    unfold run. destruct (negb _); [intros a b H; split; [reflexivity|exact H]|].
    destruct x as [|x0 x]; [intros a b H; split; [reflexivity|exact H]|].
    apply alike_bind; [apply blind_alike; intros o h; reflexivity|intros _].
    destruct (negb _); [intros a b H; split; [reflexivity|exact H]|]. apply alike_reset.
  Qed.
  Lemma alike_repeat k m : alike m -> alike (repeat_m k m).
  Proof.
    intros Hm; induction k as [|k IH]; cbn [repeat_m]; [intros a b H; split; [reflexivity|exact H]|].
    apply alike_bind; auto.
  Qed.
  Lemma alike_pretrained d x nt ep : alike (pretrained_run d x nt ep).
  Proof.
    unfold pretrained_run. apply alike_bind; [apply alike_repeat, alike_bind; [apply alike_run|]|intros _; apply alike_run].
    intros _ a b H; split; [reflexivity|exact H].
  Qed.

  Lemma exec_alike p (a b : obj) : same_filter a b -> outcome p a = outcome p b /\ same_filter (exec p a) (exec p b).
  Proof.
    intros H; destruct p as [x|d x|d x|d x nt ep]; cbn [outcome exec].
    - destruct (blind_alike _ (blind_predict x) a b H) as (-> & ?); auto.
    - destruct (blind_alike _ (blind_adapt d x) a b H) as (-> & ?); auto.
    - destruct (alike_run d x a b H) as (-> & ?); auto.
    - destruct (alike_pretrained d x nt ep a b H) as (-> & ?); auto.
  Qed.
  Lemma script_alike ps : forall a b : obj, same_filter a b ->
    outcomes ps a = outcomes ps b /\ same_filter (exec_all ps a) (exec_all ps b).
  Proof.
    induction ps as [|p ps IH]; intros a b H; [auto|]. cbn [outcomes]. unfold exec_all. cbn [fold_left].
    destruct (exec_alike p a b H) as (-> & H'). destruct (IH _ _ H') as (-> & ?). auto.
  Qed.

  (** *** memoryless classes change no attribute but w (and n in run) *)
  Definition plain (e : ext) : bool :=
    match e with
    | XBase | XLMS | XLMF | XSSLMS | XNLMS _ | XNLMF _ | XNSSLMS _ | XGMCC _ _ | XLlncosh _ => true
    | _ => false
    end.
  Definition ke {A} (m : M obj A) : Prop :=
    forall s, plain (o_ext s) = true -> o_ext (fst (m s)) = o_ext s /\ o_mu (fst (m s)) = o_mu s.
  Lemma ke_bind {A B} (m : M obj A) (f : A -> M obj B) : ke m -> (forall a, ke (f a)) -> ke (bind m f).
  Proof.
    intros Hm Hf s Hs. destruct (Hm s Hs) as (E & F). unfold bind. destruct (m s) as [s' [a|x]]; cbn [fst] in *; auto.
    assert (Hs' : plain (o_ext s') = true) by congruence. destruct (Hf a s' Hs'). split; congruence.
  Qed.
  Lemma ke_ret {A} (a : A) : ke (ret a). Proof. intros s Hs; auto. Qed.
  Lemma ke_raise {A} x : ke (raise x : M obj A). Proof. intros s Hs; auto. Qed.
  Lemma ke_lift {A} (r : result A) : ke (lift r). Proof. intros s Hs; auto. Qed.
  Lemma ke_get {B} (f : obj -> M obj B) : (forall o, plain (o_ext o) = true -> ke (f o)) -> ke (bind get f).
  Proof. intros Hf s Hs; unfold bind, get. apply Hf; auto. Qed.
  Lemma ke_modify f : (forall s, o_ext (f s) = o_ext s /\ o_mu (f s) = o_mu s) -> ke (modify f).
  Proof. intros H s Hs; apply H. Qed.
  Ltac ket := repeat
    match goal with
    | |- ke (ret _) => apply ke_ret
    | |- ke (raise _) => apply ke_raise
    | |- ke (lift _) => apply ke_lift
    | |- ke (bind get _) => apply ke_get; intros ?o ?Ho
    | |- ke (modify (set_w _)) => apply ke_modify; intros; auto
    | |- ke (modify (set_n _)) => apply ke_modify; intros; auto
    | |- ke (modify (set_hist _)) => apply ke_modify; intros; auto
    | |- ke (match o_ext ?x with _ => _ end) => destruct (o_ext x) eqn:?; try discriminate
    | |- ke (bind _ _) => apply ke_bind; [|intros ?a]
    | |- ke (match ?x with _ => _ end) => destruct x
    end.
  Lemma ke_predict x : ke (predict x). Proof. unfold predict; ket. Qed.
  Lemma ke_learning_rule e x : ke (learning_rule e x). Proof. unfold learning_rule; ket. Qed.
  Lemma ke_iadd dw : ke (iadd_w dw). Proof. unfold iadd_w; ket. Qed.
  Lemma ke_hist k : ke (hist_set k). Proof. unfold hist_set; ket. Qed.
  Lemma ke_adapt d x : ke (adapt d x).
  Proof.
    unfold adapt. apply ke_get; intros o Ho. assert (is_AP o = false) as -> by (unfold is_AP; destruct (o_ext o); auto; discriminate).
    unfold adapt_base. ket; auto using ke_predict, ke_learning_rule, ke_iadd.
  Qed.
  Lemma ke_body k d x : ke (run_body k d x).
  Proof.
    unfold run_body. apply ke_get; intros o Ho. assert (is_AP o = false) as -> by (unfold is_AP; destruct (o_ext o); auto; discriminate).
    unfold run_body_base. ket; auto using ke_predict, ke_learning_rule, ke_iadd, ke_hist.
  Qed.
  Lemma ke_loop k d x : ke (run_loop k d x).
  Proof. revert k x; induction d as [|d0 d IH]; intros k [|x0 x]; cbn [run_loop]; ket; auto using ke_body. Qed.
  Lemma ke_run d x : ke (run d x).
  Proof. unfold run; ket; apply ke_loop. Qed.
  Lemma ke_repeat k m : ke m -> ke (repeat_m k m).
  Proof. intros Hm; induction k as [|k IH]; cbn [repeat_m]; ket; auto. Qed.
  Lemma ke_pretrained d x nt ep : ke (pretrained_run d x nt ep).
  Proof. unfold pretrained_run; ket; [apply ke_repeat; ket|]; apply ke_run. Qed.
  Lemma exec_ke p (o : obj) : plain (o_ext o) = true -> o_ext (exec p o) = o_ext o /\ o_mu (exec p o) = o_mu o.
  Proof.
    destruct p as [x|d x|d x|d x nt ep]; cbn [exec]; intros H.
    - apply ke_predict, H.
    - apply ke_adapt, H.
    - apply ke_run, H.
    - apply ke_pretrained, H.
  Qed.
  Lemma script_ke ps : forall o : obj, plain (o_ext o) = true ->
    o_ext (exec_all ps o) = o_ext o /\ o_mu (exec_all ps o) = o_mu o.
  Proof.
    induction ps as [|p ps IH]; intros o H; [auto|]. unfold exec_all. cbn [fold_left].
    destruct (exec_ke p o H) as (E1 & E2). destruct (IH (exec p o)) as (F1 & F2); [congruence|].
    unfold exec_all in F1, F2. split; congruence.
  Qed.
  Lemma script_wf n ps : forall o : obj, wf n o -> Forall (op_shape n) ps -> wf n (exec_all ps o).
  Proof.
    induction ps as [|p ps IH]; intros o H HF; [exact H|]. unfold exec_all. cbn [fold_left].
    apply IH; [apply exec_wf; [exact H|exact (Forall_inv HF)]|exact (Forall_inv_tail HF)].
  Qed.

  (** *** C52.  A memoryless filter is determined by its class, its keyword arguments and its weights: after any
      history of well-shaped calls (successful or not), a new filter of the same class, with the same keyword
      arguments and w set to the current weights, gives from then on the same answers to every script of calls,
      and has the same weights after it. *)
  Theorem C52_warm_start : forall rng rng' k (kw : kwargs T) n (o : obj) ps,
    memoryless k = true -> rng_ok rng -> sane_kw kw -> kw_n kw = Some (Z.of_nat n) -> new_filter rng k kw = Ok o ->
    Forall (op_shape n) ps ->
    let f := exec_all ps o in
    exists g, new_filter rng' k (kw_restart kw (o_w f)) = Ok g /\ same_filter g f /\
      forall qs, outcomes qs g = outcomes qs f /\ same_filter (exec_all qs g) (exec_all qs f).
  Proof.
    intros rng rng' k kw n o ps Hk Hrng Hs Hn Hnew Hps f.
    assert (Hwf : wf n o) by exact (new_filter_wf rng k kw n o Hrng Hs Hn Hnew).
    assert (Hf : wf n f) by (apply script_wf; auto). destruct Hwf as (Lw & Ln & _). destruct Hf as (Lf & Nf & _).
    assert (H : exists g, new_filter rng' k (kw_restart kw (o_w f)) = Ok g /\ o_w g = o_w f /\ o_n g = n /\
                  o_mu g = o_mu o /\ o_ext g = o_ext o /\ plain (o_ext o) = true).
    { clearbody f. revert Hnew. unfold new_filter. cbn [kw_restart kw_other kw_n kw_mu kw_w].
      destruct (kw_other kw); [discriminate|].
      change (kw_given (kw_restart kw (o_w f))) with (kw_given kw). destruct (existsb _ _); [discriminate|]. rewrite Hn.
      match goal with |- match ?m with _ => _ end = _ -> _ => destruct m as [mu|]; [|discriminate] end.
      unfold init_base. destruct (_ =? -1)%Z; [discriminate|]. cbn [opt].
      change (init_weights rng' (WVec (o_w f)) (Z.of_nat n)) with
        (if (Z.of_nat (length (o_w f)) =? Z.of_nat n)%Z then Ok (o_w f) else Err ValueError).
      rewrite Lf, Z.eqb_refl. cbn [rmap rbind].
      replace (init_ext k (kw_restart kw (o_w f)) (Z.to_nat (Z.of_nat n)) mu)
        with (init_ext k kw (Z.to_nat (Z.of_nat n)) mu) by (destruct k; reflexivity).
      destruct (init_weights rng _ _) as [w0|]; [|discriminate]. cbn [rmap rbind].
      destruct (init_ext k kw _ mu) as [e|] eqn:E; [|discriminate]. cbn [rmap]. intros [= <-].
      eexists. split; [reflexivity|]. unfold set_ext. cbn [o_w o_n o_mu o_ext]. rewrite Nat2Z.id.
      repeat split. destruct k; try discriminate Hk; cbn in E; injection E as <-; reflexivity. }
    destruct H as (g & Hg & G1 & G2 & G3 & G4 & Hpl).
    destruct (script_ke ps o Hpl) as (F1 & F2). fold f in F1, F2.
    assert (Hsame : same_filter g f) by (repeat split; congruence).
    exists g. split; [exact Hg|]. split; [exact Hsame|]. intros qs. apply script_alike, Hsame.
  Qed.
End W.

(** *** The other classes cannot be restarted from their weights: for each of them there are a filter, one sample to
    learn from and one more, such that the restarted filter learns something else from the second one. *)
Definition qsolve2 (A B : list (list Q)) : option (list (list Q)) :=
  match A with
  | [[a; b]; [c; d]] =>
      let det := Qred (a * d - b * c) in
      if Qeq_bool det 0 then None
      else let inv := [[Qred (d / det); Qred (- b / det)]; [Qred (- c / det); Qred (a / det)]] in
           Some (map (fun r => map (fun j => qdot r (map (fun s => nth j s 0%Q) B)) [0; 1]) inv)
  | _ => None
  end.
Definition QI2 : Num Q := QNum qsolve2.

Definition kw_st (k : kind) : kwargs Q :=
  kwq 2 (1 # 2) [0; 0]%Q (match k with KOCNLMS => Some 3 | _ => None end) (match k with KAP => Some 2 | _ => None end).
Theorem C52_warm_start_refuted : forall k, memoryless k = false ->
  exists (o g : obj Q) d1 x1 d2 x2,
    @new_filter _ QI2 rng0 k (kw_st k) = Ok o /\ length x1 = 2 /\ length x2 = 2 /\
    let f := fst (@adapt _ QI2 d1 x1 o) in
    snd (@adapt _ QI2 d1 x1 o) = Ok tt /\
    @new_filter _ QI2 rng0 k (kw_restart (kw_st k) (o_w f)) = Ok g /\ o_w g = o_w f /\
    snd (@adapt _ QI2 d2 x2 f) = Ok tt /\ snd (@adapt _ QI2 d2 x2 g) = Ok tt /\
    o_w (fst (@adapt _ QI2 d2 x2 g)) <> o_w (fst (@adapt _ QI2 d2 x2 f)).
Proof.
  intros k Hk.
  exists (get_ok obj0 (@new_filter _ QI2 rng0 k (kw_st k))),
    (get_ok obj0 (@new_filter _ QI2 rng0 k (kw_restart (kw_st k)
       (o_w (fst (@adapt _ QI2 1%Q [1; 2]%Q (get_ok obj0 (@new_filter _ QI2 rng0 k (kw_st k))))))))),
    1%Q, [1; 2]%Q, 3%Q, [1; 1]%Q.
  destruct k; try discriminate Hk; vm_compute; repeat split; discriminate.
Qed.

(** the hypotheses of C52 are met: a NLMS filter, a history with a prediction, a learned sample, a batch, and a
    rejected batch *)
Example C52_hypotheses :
  memoryless KNLMS = true /\ rng_ok rng0 /\ sane_kw (kw_st KNLMS) /\ kw_n (kw_st KNLMS) = Some 2%Z /\
  (exists o : obj Q, new_filter rng0 KNLMS (kw_st KNLMS) = Ok o /\
     let ps := [OpPredict [1; 2]; OpAdapt 1 [1; 2]; OpRun [1; 2] [[1; 1]; [2; 3]]; OpRun [1] [[1; 1]; [2; 3]]]%Q in
     Forall (op_shape 2) ps /\ o_w (exec_all ps o) <> o_w o /\
     In (Err ValueError) (outcomes ps o)).
Proof.
  split; [reflexivity|]. split; [exact rng0_ok|]. split; [split; discriminate|]. split; [reflexivity|].
  exists (get_ok obj0 (new_filter rng0 KNLMS (kw_st KNLMS))). split; [reflexivity|].
  cbv zeta. split; [repeat constructor|]. split; vm_compute; [discriminate|auto].
Qed.

(** *** C51, negative part: LMF does not superpose *)
Theorem C51_LMF_refuted : exists (o : obj Q) d x,
  reachable 1 o /\ o_w o = [0%Q] /\ rows_of 1 x /\ length d = length x /\
  exists o1 o2 y1 e1 w1 y2 e2 w2, run d x o = (o1, Ok (y1, e1, w1)) /\
    run (map2 nadd d d) x o = (o2, Ok (y2, e2, w2)) /\ y2 <> map2 nadd y1 y1.
Proof.
  exists (get_ok obj0 (mk KLMF (1 # 2) [0]%Q None None)), [1; 1]%Q, [[1]; [1]]%Q.
  split; [apply (mk_reachable KLMF (1 # 2) [0]%Q None None); try discriminate; reflexivity|].
  split; [reflexivity|]. split; [repeat constructor|]. split; [reflexivity|].
  do 8 eexists. split; [vm_compute; reflexivity|]. split; [vm_compute; reflexivity|]. vm_compute. discriminate.
Qed.
