(** C75: degenerate settings: AP with order=0, OCNLMS with mem=0, init_weights(w, n) for any n.  Any arithmetic. *)
From Coq Require Import QArith.
From Verif Require Import Py Num NumQ Numpy Filters Registry Spec StructProofs RunProofs Reach PropsRun PropsWarm PropsReset PropsRegistry.
Open Scope nat_scope.

(** ** Specification *)
Section Spec.
  Context {T : Type} {NT : Num T}.
  (** calls that ask an OCNLMS filter for an output *)
  Definition asks (p : @op T) : bool :=
    match p with
    | OpPredict _ | OpAdapt _ _ => true
    | OpRun d x => (length d =? length x) && negb (length x =? 0)
    | OpPretrained _ _ _ _ => false
    end.
End Spec.

Section Props.
  Context {T : Type} {NT : Num T}.
  Notation vec := (list T).
  Notation mat := (list (list T)).
  Notation obj := (obj T).

  Lemma new_n rng k (kw : kwargs T) n (o : obj) : kw_n kw = Some (Z.of_nat n) -> new_filter rng k kw = Ok o -> o_n o = n.
  Proof.
    intros Hn. unfold new_filter. destruct (kw_other kw); [discriminate|].
    destruct (existsb _ _); [discriminate|]. rewrite Hn.
    match goal with |- match ?m with _ => _ end = _ -> _ => destruct m as [mu|]; [|discriminate] end.
    unfold init_base. destruct (_ =? -1)%Z; [discriminate|].
    destruct (init_weights rng _ _) as [v|] eqn:E; cbn [rmap rbind]; [|discriminate]. rewrite Nat2Z.id.
    destruct (init_ext k kw n mu) as [x|]; cbn [rmap]; [|discriminate]. intros H.
    assert (H1 : set_ext x (mkObj v n mu None XBase) = o) by congruence. rewrite <- H1. reflexivity.
  Qed.
  Lemma new_len rng k (kw : kwargs T) n (o : obj) : rng_ok rng -> kw_n kw = Some (Z.of_nat n) -> new_filter rng k kw = Ok o ->
    length (o_w o) = n.
  Proof.
    intros Hrng Hn. unfold new_filter. destruct (kw_other kw); [discriminate|].
    destruct (existsb _ _); [discriminate|]. rewrite Hn.
    match goal with |- match ?m with _ => _ end = _ -> _ => destruct m as [mu|]; [|discriminate] end.
    unfold init_base. destruct (_ =? -1)%Z; [discriminate|].
    destruct (init_weights rng _ _) as [v|] eqn:E; cbn [rmap rbind]; [|discriminate]. rewrite Nat2Z.id.
    destruct (init_ext k kw n mu) as [x|]; cbn [rmap]; [|discriminate]. intros H.
    assert (H1 : set_ext x (mkObj v n mu None XBase) = o) by congruence. rewrite <- H1. cbn [set_ext o_w].
    revert E. unfold init_weights. destruct (opt _ _) as [s|u].
    - destruct (String.eqb s "random"); [|destruct (String.eqb s "zeros"); [|discriminate]];
        destruct (_ <? 0)%Z; try discriminate; rewrite Nat2Z.id; intros H2; injection H2 as <-; [apply Hrng|apply repeat_length].
    - destruct (Z.eqb_spec (Z.of_nat (length u)) (Z.of_nat n)); [|discriminate]. intros H2; injection H2 as <-. lia.
  Qed.

  (** a filter whose learning always raises IndexError: [K] is kept by every call, [K'] holds after an output was asked for *)
  Section Stuck.
    Variable n : nat.
    Variable K : obj -> Prop.
    Variable K' : obj -> Prop.
    Hypothesis K_set_n : forall o, K o -> K (set_n n o).
    Hypothesis K_hist : forall o h, K o -> K (set_hist h o).
    Hypothesis K_predict : forall o x, K o -> length x = n -> o_w (fst (predict x o)) = o_w o /\ K (fst (predict x o)) /\ K' (fst (predict x o)).
    Hypothesis K_adapt : forall o d x, K o -> length x = n ->
      snd (adapt d x o) = Err IndexError /\ o_w (fst (adapt d x o)) = o_w o /\ K (fst (adapt d x o)) /\ K' (fst (adapt d x o)).
    Hypothesis K_body : forall o k d x, K o -> o_n o = n -> o_hist o <> None -> length x = n ->
      snd (run_body k d x o) = Err IndexError /\ o_w (fst (run_body k d x o)) = o_w o /\
      K (fst (run_body k d x o)) /\ K' (fst (run_body k d x o)).

    Lemma stuck_run o d x : K o -> rows_of n x ->
      (exists ex, snd (run d x o) = Err ex) /\ o_w (fst (run d x o)) = o_w o /\ K (fst (run d x o)) /\
      (length d = length x -> x <> [] -> snd (run d x o) = Err IndexError /\ K' (fst (run d x o))).
    Proof.
      intros HK Hx. destruct (Nat.eq_dec (length d) (length x)) as [Hl|Hl].
      2:{ rewrite run_bad_length by exact Hl. cbn [fst snd]. split; [eauto|]. split; [reflexivity|]. split; [exact HK|]. intros; contradiction. }
      destruct x as [|x0 x].
      { destruct d; [|discriminate]. rewrite run_empty. cbn [fst snd]. split; [eauto|]. split; [reflexivity|]. split; [exact HK|]. intros; contradiction. }
      destruct d as [|d0 d]; [discriminate|].
      assert (H0 : length x0 = n) by exact (Forall_inv Hx).
      unfold run. rewrite Hl, Nat.eqb_refl. cbn [negb]. rewrite bind_modify, H0.
      assert (Hr' : rect n (x0 :: x) = true) by (apply rect_Forall; exact Hx). rewrite Hr'. cbn [negb].
      rewrite bind_modify. set (o1 := set_hist _ (set_n n o)).
      assert (K1 : K o1) by (apply K_hist, K_set_n, HK).
      destruct (K_body o1 0 d0 x0 K1 eq_refl) as (B1 & B2 & B3 & B4); [discriminate|exact H0|].
      cbn [run_loop]. unfold bind. destruct (run_body 0 d0 x0 o1) as [o2 [a|ex]]; cbn [fst snd] in *; [discriminate|].
      injection B1 as ->. split; [eauto|]. split; [exact B2|]. split; [exact B3|]. auto.
    Qed.
    Lemma stuck_repeat k o (m : M obj unit) : (forall o, K o -> o_w (fst (m o)) = o_w o /\ K (fst (m o))) -> K o ->
      o_w (fst (repeat_m k m o)) = o_w o /\ K (fst (repeat_m k m o)).
    Proof.
      intros Hm. revert o. induction k as [|k IH]; intros o HK; cbn [repeat_m]; [split; [reflexivity|exact HK]|].
      destruct (Hm o HK) as (H1 & H2). unfold bind. destruct (m o) as [o1 [a|ex]]; cbn [fst] in *; [|split; auto].
      destruct (IH o1 H2) as (I1 & I2). split; [congruence|exact I2].
    Qed.
    Lemma stuck_pretrained o d x nt ep : K o -> rows_of n x ->
      (exists ex, snd (pretrained_run d x nt ep o) = Err ex) /\
      o_w (fst (pretrained_run d x nt ep o)) = o_w o /\ K (fst (pretrained_run d x nt ep o)).
    Proof.
      intros HK Hx. unfold pretrained_run. set (N := ntrunc _). clearbody N.
      assert (H1 : rows_of n (slice_to x N)) by (apply firstn_rows; exact Hx).
      assert (H2 : rows_of n (slice_from x N)) by (apply skipn_rows; exact Hx).
      set (m := bind (run (slice_to d N) (slice_to x N)) (fun _ => ret tt)).
      assert (Hm : forall o, K o -> o_w (fst (m o)) = o_w o /\ K (fst (m o))).
      { intros o1 K1. destruct (stuck_run o1 (slice_to d N) _ K1 H1) as (_ & R1 & R2 & _). unfold m, bind, ret.
        destruct (run _ _ o1) as [o2 [a|ex]]; cbn [fst] in *; split; auto. }
      destruct (stuck_repeat ep o m Hm HK) as (R1 & R2).
      unfold bind. destruct (repeat_m ep m o) as [o1 [a|ex]]; cbn [fst snd] in *; [|split; [eauto|split; auto]].
      destruct (stuck_run o1 (slice_from d N) _ R2 H2) as (S1 & S2 & S3 & _). split; [exact S1|]. split; [congruence|exact S3].
    Qed.

    Lemma stuck_exec o p : K o -> op_shape n p -> o_w (exec p o) = o_w o /\ K (exec p o) /\ (asks p = true -> K' (exec p o)).
    Proof.
      intros HK Hp. destruct p as [x|d x|d x|d x nt ep]; cbn [op_shape exec asks] in *.
      - destruct (K_predict o x HK Hp) as (A & B & C). auto.
      - destruct (K_adapt o d x HK Hp) as (_ & A & B & C). auto.
      - destruct (stuck_run o d x HK Hp) as (_ & A & B & C). split; [exact A|]. split; [exact B|]. intros H.
        apply andb_prop in H as (H1 & H2). apply Nat.eqb_eq in H1. apply C; [exact H1|]. intros ->. discriminate.
      - destruct (stuck_pretrained o d x nt ep HK Hp) as (_ & A & B). split; [exact A|]. split; [exact B|]. discriminate.
    Qed.
    Lemma stuck_all ps : forall o, K o -> Forall (op_shape n) ps -> o_w (exec_all ps o) = o_w o /\ K (exec_all ps o).
    Proof.
      induction ps as [|p ps IH]; intros o HK HF; [split; [reflexivity|exact HK]|].
      destruct (stuck_exec o p HK (Forall_inv HF)) as (A & B & _). destruct (IH _ B (Forall_inv_tail HF)) as (C & D).
      change (exec_all (p :: ps) o) with (exec_all ps (exec p o)). split; [congruence|exact D].
    Qed.
  End Stuck.

  (** *** AP, order=0 *)
  Definition ap0 (n : nat) (o : obj) : Prop :=
    length (o_w o) = n /\ exists xm dm ii id ym em, o_ext o = XAP 0 xm dm ii id ym em.

  Lemma ap0_predict n (o : obj) x : ap0 n o -> length x = n -> predict x o = (o, Ok (ndot (o_w o) x)).
  Proof.
    intros (Hl & xm & dm & ii & id & ym & em & E) Hx. rewrite predict_plain by (unfold is_OCNLMS; rewrite E; reflexivity).
    unfold vdot. rewrite Hl, Hx, Nat.eqb_refl. reflexivity.
  Qed.
  Lemma ap0_push n (o : obj) x : ap0 n o -> exists o', ap_push_x x o = (o', Err IndexError) /\ o_w o' = o_w o /\ o_hist o' = o_hist o /\ ap0 n o'.
  Proof.
    intros (Hl & xm & dm & ii & id & ym & em & E). unfold ap_push_x, bind, get, modify. rewrite E. cbn [Nat.eqb]. unfold raise.
    eexists. split; [reflexivity|]. split; [reflexivity|]. split; [reflexivity|]. split; [exact Hl|].
    cbn [set_ext o_ext]. do 6 eexists. reflexivity.
  Qed.
  Lemma ap0_is n (o : obj) : ap0 n o -> is_AP o = true.
  Proof. intros (Hl & xm & dm & ii & id & ym & em & E). unfold is_AP. rewrite E. reflexivity. Qed.
  Lemma ap0_adapt n (o : obj) d x : ap0 n o ->
    snd (adapt d x o) = Err IndexError /\ o_w (fst (adapt d x o)) = o_w o /\ ap0 n (fst (adapt d x o)) /\ True.
  Proof.
    intros H. destruct (ap0_push n o x H) as (o' & P & W & _ & Q).
    assert (E : adapt d x o = (o', Err IndexError)).
    { unfold adapt, bind, get. rewrite (ap0_is n o H). unfold adapt_AP, bind. rewrite P. reflexivity. }
    rewrite E. cbn [fst snd]. auto.
  Qed.
  Lemma hist_set_at n k (o : obj) : length (o_w o) = n -> o_n o = n -> o_hist o <> None ->
    exists h, hist_set k o = (set_hist h o, Ok tt).
  Proof.
    intros Hw Hn Hh. unfold hist_set, bind, get. destruct (o_hist o) as [h|]; [|congruence].
    rewrite Hw, Hn, Nat.eqb_refl. unfold ret, modify. eexists. reflexivity.
  Qed.
  Lemma ap0_body n (o : obj) k d x : ap0 n o -> o_n o = n -> o_hist o <> None ->
    snd (run_body k d x o) = Err IndexError /\ o_w (fst (run_body k d x o)) = o_w o /\
    ap0 n (fst (run_body k d x o)) /\ True.
  Proof.
    intros H Hn Hh. destruct (hist_set_at n k o (proj1 H) Hn Hh) as (h & Hs).
    assert (H1 : ap0 n (set_hist h o)) by exact H.
    destruct (ap0_push n _ x H1) as (o' & P & W & _ & Q).
    assert (E : run_body k d x o = (o', Err IndexError)).
    { unfold run_body, bind, get. rewrite (ap0_is n o H). unfold run_body_AP, bind. rewrite Hs, P. reflexivity. }
    rewrite E. cbn [fst snd]. auto.
  Qed.

  (** *** C75.  An AP filter with order=0 can be built and used for prediction, but never learns: after any history of
      well-shaped calls the weights are the initial ones, predict gives their product with x, adapt and run raise IndexError *)
  Theorem C75_AP_order_zero : forall rng (kw : kwargs T) n (o : obj) ps,
    rng_ok rng -> kw_n kw = Some (Z.of_nat n) -> kw_order kw = Some 0 -> new_filter rng KAP kw = Ok o ->
    Forall (op_shape n) ps ->
    let f := exec_all ps o in
    o_w f = o_w o /\
    (forall x, length x = n -> snd (predict x f) = Ok (ndot (o_w o) x)) /\
    (forall d x, length x = n -> snd (adapt d x f) = Err IndexError) /\
    (forall d x, rows_of n x -> length d = length x -> x <> [] -> snd (run d x f) = Err IndexError).
  Proof.
    intros rng kw n o ps Hrng Hn Ho Hnew HF f.
    assert (H0 : ap0 n o).
    { split; [exact (new_len rng KAP kw n o Hrng Hn Hnew)|].
      destruct (new_ext rng KAP kw n o Hn Hnew) as (mu & H). cbn [init_ext] in H. rewrite Ho in H. cbn [opt] in H.
      injection H as H. rewrite <- H. do 6 eexists. reflexivity. }
    assert (HK : forall o x, ap0 n o -> length x = n ->
      o_w (fst (predict x o)) = o_w o /\ ap0 n (fst (predict x o)) /\ True).
    { intros o1 x H Hx. rewrite (ap0_predict n o1 x H Hx). auto. }
    assert (HB : forall o k d x, ap0 n o -> o_n o = n -> o_hist o <> None -> length x = n ->
      snd (run_body k d x o) = Err IndexError /\ o_w (fst (run_body k d x o)) = o_w o /\ ap0 n (fst (run_body k d x o)) /\ True).
    { intros. apply ap0_body; auto. }
    destruct (stuck_all n (ap0 n) (fun _ => True)) with (ps := ps) (o := o) as (S1 & S2); auto.
    { intros; apply ap0_adapt; auto. }
    fold f in S1, S2. split; [exact S1|]. split; [|split].
    - intros x Hx. rewrite (ap0_predict n f x S2 Hx), S1. reflexivity.
    - intros d x Hx. apply (ap0_adapt n f d x S2).
    - intros d x Hx Hl Hne. destruct (stuck_run n (ap0 n) (fun _ => True)) with (o := f) (d := d) (x := x) as (_ & _ & _ & R); auto.
      apply R; auto.
  Qed.

  (** *** OCNLMS, mem=0 *)
  Definition oc0 (n : nat) (o : obj) : Prop :=
    length (o_w o) = n /\ o_n o = n /\ exists eps em, o_ext o = XOCNLMS eps 0 em [] [] 0.
  Definition oc0_used (o : obj) : Prop := exists eps, o_ext o = XOCNLMS eps 0 false [] [] 0.

  Lemma bc_zeros (x : vec) n : length x = n -> bc_sub x (zeros n) = Ok (map2 nsub x (zeros n)).
  Proof. intros H. unfold bc_sub, bc, zeros. rewrite repeat_length, H, Nat.eqb_refl. reflexivity. Qed.

  Lemma oc0_predict n (o : obj) x : oc0 n o -> length x = n ->
    exists o' r, predict x o = (o', r) /\ o_w o' = o_w o /\ o_hist o' = o_hist o /\ oc0 n o' /\ oc0_used o' /\
      (oc0_used o -> r = Err IndexError) /\
      (forall eps, o_ext o = XOCNLMS eps 0 true [] [] 0 -> r = Ok (nadd (ndot (o_w o) (map2 nsub x (zeros n))) n0)).
  Proof.
    intros (Hl & Hn & eps & em & E) Hx. unfold predict, bind, get. rewrite E. unfold read_memory, bind, get. rewrite E.
    destruct em; cbn [Nat.eqb].
    - unfold ret, modify, lift. cbn [length Nat.sub Nat.add Nat.ltb Nat.leb]. rewrite Hn, (bc_zeros x n Hx).
      cbn [o_w set_ext]. unfold vdot. rewrite (map2_length_eq nsub x (zeros n) n) by (first [exact Hx|apply repeat_length]).
      rewrite Hl, Nat.eqb_refl. do 2 eexists. split; [reflexivity|]. split; [reflexivity|]. split; [reflexivity|].
      split; [split; [exact Hl|split; [exact Hn|]]; do 2 eexists; reflexivity|]. split; [eexists; reflexivity|]. split.
      + intros (eps' & H). congruence.
      + intros; reflexivity.
    - cbn [length Nat.ltb Nat.leb]. unfold raise. do 2 eexists. split; [reflexivity|]. split; [reflexivity|]. split; [reflexivity|].
      split; [split; [exact Hl|split; [exact Hn|]]; do 2 eexists; exact E|]. split; [eexists; exact E|]. split.
      + intros; reflexivity.
      + intros eps' H. congruence.
  Qed.
  Lemma oc0_rule (o : obj) e x : oc0_used o -> learning_rule e x o = (o, Err IndexError).
  Proof.
    intros (eps & E). unfold learning_rule, bind, get. rewrite E. unfold update_memory_x, bind, get. rewrite E. reflexivity.
  Qed.
  Lemma oc0_is (o : obj) n : oc0 n o -> is_AP o = false.
  Proof. intros (_ & _ & eps & em & E). unfold is_AP. rewrite E. reflexivity. Qed.
  Lemma oc0_adapt n (o : obj) d x : oc0 n o -> length x = n ->
    snd (adapt d x o) = Err IndexError /\ o_w (fst (adapt d x o)) = o_w o /\ oc0 n (fst (adapt d x o)) /\ oc0_used (fst (adapt d x o)).
  Proof.
    intros H Hx. destruct (oc0_predict n o x H Hx) as (o' & r & P & W & _ & K1 & K2 & P1 & P2).
    assert (E : adapt d x o = (o', Err IndexError)).
    { unfold adapt, bind, get. rewrite (oc0_is o n H). unfold adapt_base, bind. rewrite P.
      destruct H as (_ & _ & eps & [] & E).
      - rewrite (P2 _ E), (oc0_rule o' _ x K2). reflexivity.
      - rewrite P1 by (eexists; exact E). reflexivity. }
    rewrite E. cbn [fst snd]. auto.
  Qed.
  Lemma oc0_body n (o : obj) k d x : oc0 n o -> o_n o = n -> o_hist o <> None -> length x = n ->
    snd (run_body k d x o) = Err IndexError /\ o_w (fst (run_body k d x o)) = o_w o /\
    oc0 n (fst (run_body k d x o)) /\ oc0_used (fst (run_body k d x o)).
  Proof.
    intros H Hn Hh Hx. destruct (hist_set_at n k o (proj1 H) Hn Hh) as (h & Hs).
    assert (H1 : oc0 n (set_hist h o)) by exact H.
    destruct (oc0_predict n _ x H1 Hx) as (o' & r & P & W & _ & K1 & K2 & P1 & P2).
    assert (E : run_body k d x o = (o', Err IndexError)).
    { unfold run_body, bind, get. rewrite (oc0_is o n H). unfold run_body_base, bind. rewrite Hs, P.
      destruct H1 as (_ & _ & eps & [] & E).
      - rewrite (P2 _ E), (oc0_rule o' _ x K2). reflexivity.
      - rewrite P1 by (eexists; exact E). reflexivity. }
    rewrite E. cbn [fst snd]. auto.
  Qed.

  Lemma oc0_kept n (o : obj) p : oc0 n o -> oc0_used o -> op_shape n p -> oc0_used (exec p o).
  Proof.
    intros H0 H1. assert (HK : forall o, oc0 n o /\ oc0_used o -> oc0 n o) by tauto.
    assert (R : op_shape n p -> o_w (exec p o) = o_w o /\ (oc0 n (exec p o) /\ oc0_used (exec p o)) /\ (asks p = true -> True)).
    { apply (stuck_exec n (fun o => oc0 n o /\ oc0_used o) (fun _ => True)).
      - intros o1 ((L1 & _ & L3) & U). split; [split; [exact L1|split; [reflexivity|exact L3]]|exact U].
      - intros o1 h H. exact H.
      - intros o1 x (A & B) Hx. destruct (oc0_predict n o1 x A Hx) as (o' & r & P & W & _ & K1 & K2 & _). rewrite P. cbn [fst]. auto.
      - intros o1 d x (A & B) Hx. destruct (oc0_adapt n o1 d x A Hx) as (A1 & A2 & A3 & A4). auto.
      - intros o1 k d x (A & B) Hn Hh Hx. destruct (oc0_body n o1 k d x A Hn Hh Hx) as (A1 & A2 & A3 & A4). auto.
      - split; assumption. }
    intros Hp. apply R, Hp.
  Qed.

  (** An OCNLMS filter with mem=0 answers one predict call (if that is the first call), then every predict, and adapt and run
      from the beginning, raise IndexError; the weights stay the initial ones *)
  Theorem C75_OCNLMS_mem_zero : forall rng (kw : kwargs T) n (o : obj) ps,
    rng_ok rng -> kw_n kw = Some (Z.of_nat n) -> kw_mem kw = Some 0 -> new_filter rng KOCNLMS kw = Ok o ->
    Forall (op_shape n) ps ->
    let f := exec_all ps o in
    o_w f = o_w o /\
    (forall x, length x = n -> snd (predict x o) = Ok (nadd (ndot (o_w o) (map2 nsub x (repeat n0 n))) n0)) /\
    (forall x, length x = n -> existsb asks ps = true -> snd (predict x f) = Err IndexError) /\
    (forall d x, length x = n -> snd (adapt d x f) = Err IndexError) /\
    (forall d x, rows_of n x -> length d = length x -> x <> [] -> snd (run d x f) = Err IndexError).
  Proof.
    intros rng kw n o ps Hrng Hn Hm Hnew HF f.
    destruct (new_OCNLMS rng kw n o Hn Hnew) as (eps & E). cbv zeta in E. rewrite Hm in E. cbn [zeros2 zeros repeat] in E.
    assert (H0 : oc0 n o).
    { split; [exact (new_len rng KOCNLMS kw n o Hrng Hn Hnew)|]. split; [exact (new_n rng KOCNLMS kw n o Hn Hnew)|].
      do 2 eexists. exact E. }
    assert (HK : forall o x, oc0 n o -> length x = n ->
      o_w (fst (predict x o)) = o_w o /\ oc0 n (fst (predict x o)) /\ oc0_used (fst (predict x o))).
    { intros o1 x H Hx. destruct (oc0_predict n o1 x H Hx) as (o' & r & P & W & _ & K1 & K2 & _). rewrite P. auto. }
    assert (HS : forall o, oc0 n o -> oc0 n (set_n n o)).
    { intros o1 (L1 & L2 & L3). split; [exact L1|]. split; [reflexivity|exact L3]. }
    assert (HA : forall o ps, oc0 n o -> Forall (op_shape n) ps -> o_w (exec_all ps o) = o_w o /\ oc0 n (exec_all ps o)).
    { intros o1 qs H1 H2. apply (stuck_all n (oc0 n) oc0_used); auto; [intros; apply oc0_adapt; auto|intros; apply oc0_body; auto]. }
    assert (HX : forall o p, oc0 n o -> op_shape n p ->
       o_w (exec p o) = o_w o /\ oc0 n (exec p o) /\ (asks p = true -> oc0_used (exec p o))).
    { intros o1 p H1 H2. apply (stuck_exec n (oc0 n) oc0_used); auto; [intros; apply oc0_adapt; auto|intros; apply oc0_body; auto]. }
    destruct (HA o ps H0 HF) as (S1 & S2). fold f in S1, S2.
    split; [exact S1|]. split; [|split; [|split]].
    - intros x Hx. destruct (oc0_predict n o x H0 Hx) as (o' & r & P & _ & _ & _ & _ & _ & P2). rewrite P. cbn [snd].
      exact (P2 eps E).
    - intros x Hx Ha. assert (HU : forall qs g, oc0 n g -> oc0_used g -> Forall (op_shape n) qs -> oc0_used (exec_all qs g)).
      { clear - HX HK. induction qs as [|p qs IH]; intros g Hg Hu HF; [exact Hu|].
        change (exec_all (p :: qs) g) with (exec_all qs (exec p g)).
        destruct (HX g p Hg (Forall_inv HF)) as (_ & X2 & _). apply IH; [exact X2| |exact (Forall_inv_tail HF)].
        apply (oc0_kept n g p Hg Hu (Forall_inv HF)). }
      assert (U : oc0_used f).
      { unfold f. clear f S1 S2. clear E eps Hnew. revert o H0 HF Ha. induction ps as [|p ps IH]; intros g Hg HF Ha; [discriminate|].
        change (exec_all (p :: ps) g) with (exec_all ps (exec p g)).
        destruct (HX g p Hg (Forall_inv HF)) as (_ & X2 & X3). cbn [existsb] in Ha. apply orb_prop in Ha as [Ha|Ha].
        - apply HU; [exact X2|exact (X3 Ha)|exact (Forall_inv_tail HF)].
        - apply IH; [exact X2|exact (Forall_inv_tail HF)|exact Ha]. }
      destruct (oc0_predict n f x S2 Hx) as (o' & r & P & _ & _ & _ & _ & P1 & _). rewrite P. cbn [snd]. exact (P1 U).
    - intros d x Hx. apply (oc0_adapt n f d x S2 Hx).
    - intros d x Hx Hl Hne.
      destruct (stuck_run n (oc0 n) oc0_used) with (o := f) (d := d) (x := x) as (_ & _ & _ & R); auto; [intros; apply oc0_body; auto|].
      apply R; auto.
  Qed.

  (** *** init_weights(w, n) on a built filter returns weights and changes nothing: n = -1 means the filter's own size, any
      other n is taken literally (so n < -1 is rejected) *)
  Theorem C75_init_weights : forall rng (w : wspec T) n (o : obj),
    let m := if (n =? -1)%Z then Z.of_nat (o_n o) else n in
    fst (init_weights_method rng w n o) = o /\
    ((0 <= m)%Z -> forall v, initial_weights rng (Some w) (Z.to_nat m) v <-> snd (init_weights_method rng w n o) = Ok v) /\
    ((m < 0)%Z -> snd (init_weights_method rng w n o) = Err ValueError) /\
    (forall ex, snd (init_weights_method rng w n o) = Err ex -> ex = ValueError).
  Proof.
    intros rng w n o m. unfold init_weights_method, bind, get, lift. fold m. clearbody m. cbn [fst snd].
    destruct w as [s|u]; cbn [init_weights initial_weights].
    - destruct (String.eqb_spec s "random") as [->|Hr].
      + destruct (Z.ltb_spec m 0); cbn [fst snd]; (split; [reflexivity|]); (split; [|split]); try lia; try congruence.
        intros _ v. split; [intros [(_ & ->)|(H' & _)]; [reflexivity|discriminate]|]. intros H'; injection H' as <-. left; auto.
      + destruct (String.eqb_spec s "zeros") as [->|Hz].
        * destruct (Z.ltb_spec m 0); cbn [fst snd]; (split; [reflexivity|]); (split; [|split]); try lia; try congruence.
          intros _ v. split; [intros [(H' & _)|(_ & ->)]; [discriminate|reflexivity]|]. intros H'; injection H' as <-. right; auto.
        * cbn [fst snd]. split; [reflexivity|]. split; [|split]; try congruence.
          intros _ v. split; [intros [(H' & _)|(H' & _)]; contradiction|discriminate].
    - destruct (Z.eqb_spec (Z.of_nat (length u)) m); cbn [fst snd]; (split; [reflexivity|]); (split; [|split]); try lia; try congruence.
      + intros _ v. split; [intros (-> & _); reflexivity|]. intros H'; injection H' as <-. split; [reflexivity|lia].
      + intros Hm v. split; [intros (_ & H'); lia|discriminate].
  Qed.
End Props.

(** the hypotheses are met: exact rationals, two weights *)
Example C75_hypotheses :
  let kw0 := mkKw (Some 2%Z) (Some (1 # 2)%Q) (Some (WVec [3; 4]%Q)) None None None None None (Some 0) None None false in
  let kw1 := mkKw (Some 2%Z) (Some (1 # 2)%Q) (Some (WVec [3; 4]%Q)) None None None None None None None (Some 0) false in
  let ps := [OpPredict [1; 2]; OpAdapt 1 [1; 2]; OpRun [1; 2] [[1; 1]; [2; 3]]]%Q in
  rng_ok rng0 /\ Forall (op_shape 2) ps /\ existsb asks ps = true /\
  (exists o : obj Q, new_filter rng0 KAP kw0 = Ok o /\
    outcomes ps o = [Ok (VNum 11%Q); Err IndexError; Err IndexError]) /\
  (exists o : obj Q, new_filter rng0 KOCNLMS kw1 = Ok o /\
    outcomes ps o = [Ok (VNum 11%Q); Err IndexError; Err IndexError] /\ snd (predict [1; 2]%Q (exec_all ps o)) = Err IndexError /\
    snd (init_weights_method rng0 (WStr "zeros") (-2) o) = Err ValueError /\
    snd (init_weights_method rng0 (WStr "zeros") (-1) o) = Ok [0; 0]%Q /\
    snd (init_weights_method rng0 (WStr "zeros") 3 o) = Ok [0; 0; 0]%Q).
Proof.
  cbv zeta. split; [exact rng0_ok|]. split; [repeat constructor|]. split; [reflexivity|]. split.
  - eexists. split; [vm_compute; reflexivity|]. vm_compute. reflexivity.
  - eexists. split; [vm_compute; reflexivity|]. repeat split; vm_compute; reflexivity.
Qed.
