(** Property C26: bookkeeping of the OCNLMS memory (any arithmetic). *)
From Coq Require Import QArith Permutation.
From Verif Require Import Py Num NumQ Numpy Filters Registry Spec StructProofs RunProofs Reach Steps PropsRun PropsAPMem History.
Open Scope nat_scope.

Section Props.
  Context {T : Type} {NT : Num T}.
  Notation vec := (list T).
  Notation mat := (list (list T)).
  Notation obj := (obj T).

  (** ** Specification *)
  (** how often the memory index has advanced: once per prediction, twice per learned sample *)
  Fixpoint ticks (evs : list (event T)) : nat :=
    match evs with
    | [] => 0
    | Predicted _ :: r => 1 + ticks r
    | Learned _ _ :: r => 2 + ticks r
    end.

  (** the last sample written to slot i: a sample learned when the index had advanced c times goes to slot
      (c + 1) mod mem *)
  Fixpoint last_written (mem i c : nat) (evs : list (event T)) (acc : option vec) : option vec :=
    match evs with
    | [] => acc
    | Predicted _ :: r => last_written mem i (c + 1) r acc
    | Learned _ x :: r => last_written mem i (c + 2) r (if (c + 1) mod mem =? i then Some x else acc)
    end.

  Definition no_prediction (evs : list (event T)) : Prop := Forall (fun ev => match ev with Predicted _ => False | _ => True end) evs.

  (** ** Lemmas *)
  Lemma oc_idx_tick mem c : 1 <= mem -> oc_idx mem (c mod mem) = (c + 1) mod mem.
  Proof.
    intros Hm. unfold oc_idx. pose proof (Nat.mod_upper_bound c mem ltac:(lia)) as Hb.
    rewrite <- (Nat.add_mod_idemp_l c 1 mem) by lia.
    destruct (Nat.ltb_spec (mem - 1) (c mod mem + 1)) as [H|H].
    - replace (c mod mem + 1) with mem by lia. symmetry; apply Nat.mod_same; lia.
    - symmetry; apply Nat.mod_small; lia.
  Qed.
  Lemma oc_em_tick mem c : 1 <= mem -> oc_em mem (c <? mem) (c mod mem) = (c + 1 <? mem).
  Proof.
    intros Hm. unfold oc_em. pose proof (Nat.mod_upper_bound c mem ltac:(lia)) as Hb.
    pose proof (Nat.mod_le c mem ltac:(lia)) as Hle.
    destruct (Nat.ltb_spec (mem - 1) (c mod mem + 1)) as [H|H].
    - symmetry; apply Nat.ltb_ge. lia.
    - destruct (Nat.ltb_spec c mem) as [H1|H1].
      + rewrite Nat.mod_small in H by lia. symmetry; apply Nat.ltb_lt; lia.
      + symmetry; apply Nat.ltb_ge; lia.
  Qed.

  Lemma ticks_app a b : ticks (a ++ b) = ticks a + ticks b.
  Proof. induction a as [|[x|d x] a IH]; cbn [app ticks]; lia. Qed.
  Lemma last_written_app mem i a : forall c b acc,
    last_written mem i c (a ++ b) acc = last_written mem i (c + ticks a) b (last_written mem i c a acc).
  Proof.
    induction a as [|[x|d x] a IH]; intros c b acc; cbn [app ticks last_written].
    - rewrite Nat.add_0_r; reflexivity.
    - rewrite IH. f_equal. lia.
    - rewrite IH. f_equal. lia.
  Qed.

  (** the memory after the events evs *)
  Definition oc_memory (mem n : nat) (eps mu : T) (evs : list (event T)) (o : obj) : Prop :=
    o_mu o = mu /\
    match o_ext o with
    | XOCNLMS eps' mem' em mx md idx =>
        eps' = eps /\ mem' = mem /\ idx = ticks evs mod mem /\ em = (ticks evs <? mem) /\
        forall i, i < mem ->
          nth i mx [] = (match last_written mem i 0 evs None with Some x => x | None => zeros n end) /\
          (last_written mem i 0 evs None = None -> nth i md n0 = n0)
    | _ => False
    end.

  Lemma oc_memory_learn mem n eps mu s (o : obj) d x : wf n o -> oc_memory mem n eps mu s o -> length x = n ->
    oc_memory mem n eps mu (s ++ [Learned d x]) (fst (adapt d x o)).
  Proof.
    intros Hwf (Hmu & HM) Hl. destruct (o_ext o) as [| | | | | | | | | | | eps' mem' em mx md idx | | | |] eqn:E; try contradiction.
    destruct HM as (-> & -> & -> & -> & HS).
    pose proof Hwf as (_ & _ & Hx). rewrite E in Hx. destruct Hx as (Hm & Hlx & Hr & Hld & Hi).
    rewrite (adapt_OCNLMS n o d x eps mem _ mx md _ Hwf Hl E). cbv zeta. cbn [fst].
    split; [exact Hmu|]. cbn [set_w set_ext o_ext].
    rewrite oc_idx_tick, oc_em_tick by auto. rewrite oc_idx_tick, oc_em_tick by auto.
    rewrite ticks_app. cbn [ticks].
    replace (ticks s + 1 + 1) with (ticks s + (2 + 0)) by lia.
    split; [reflexivity|]. split; [reflexivity|]. split; [reflexivity|]. split; [reflexivity|].
    intros i Hil. rewrite last_written_app. cbn [last_written plus].
    assert (Hb : (ticks s + 1) mod mem < mem) by (apply Nat.mod_upper_bound; lia).
    rewrite !nth_set_nth by lia.
    replace (i =? (ticks s + 1) mod mem) with ((ticks s + 1) mod mem =? i) by (apply Nat.eqb_sym).
    destruct ((ticks s + 1) mod mem =? i); [split; [reflexivity|discriminate]|]. apply HS; auto.
  Qed.

  Lemma oc_memory_predict mem n eps mu s (o : obj) x : wf n o -> oc_memory mem n eps mu s o -> length x = n ->
    oc_memory mem n eps mu (s ++ [Predicted x]) (fst (predict x o)).
  Proof.
    intros Hwf (Hmu & HM) Hl. destruct (o_ext o) as [| | | | | | | | | | | eps' mem' em mx md idx | | | |] eqn:E; try contradiction.
    destruct HM as (-> & -> & -> & -> & HS).
    pose proof Hwf as (_ & _ & Hx). rewrite E in Hx. destruct Hx as (Hm & _).
    rewrite (predict_OCNLMS n o x eps mem _ mx md _ Hwf Hl E). cbn [fst].
    split; [exact Hmu|]. cbn [set_ext o_ext]. rewrite oc_idx_tick, oc_em_tick by auto. rewrite ticks_app. cbn [ticks].
    split; [reflexivity|]. split; [reflexivity|]. split; [reflexivity|]. split; [reflexivity|].
    intros i Hil. rewrite last_written_app. cbn [last_written]. apply HS; auto.
  Qed.

  Lemma oc_new rng (kw : kwargs T) n (o : obj) : sane_kw kw -> kw_n kw = Some (Z.of_nat n) -> new_filter rng KOCNLMS kw = Ok o ->
    exists eps, oc_memory (match kw_mem kw with Some m => m | None => 100 end) n eps (o_mu o) [] o.
  Proof.
    intros (Hs & _) Hn. unfold new_filter. destruct (kw_other kw); [discriminate|].
    destruct (existsb _ _); [discriminate|]. rewrite Hn.
    destruct (match kw_mu kw with Some _ => _ | None => _ end) as [mu|]; [|discriminate].
    destruct (init_base _ _ _ _ _) as [o0|]; cbn [rbind rmap]; [|discriminate]. rewrite Nat2Z.id. unfold opt.
    cbn [init_ext rbind rmap]. intros [= <-]. eexists. split; [reflexivity|]. cbn [set_ext o_ext]. unfold opt.
    set (mem := match kw_mem kw with Some m => m | None => 100 end).
    assert (Hm : 1 <= mem) by (unfold mem; destruct (kw_mem kw); [apply Hs; reflexivity|lia]).
    split; [reflexivity|]. split; [reflexivity|].
    cbn [ticks]. split; [rewrite Nat.mod_0_l by lia; reflexivity|]. split; [symmetry; apply Nat.ltb_lt; lia|].
    intros i Hi. cbn [last_written]. unfold zeros2. split.
    - rewrite (nth_indep _ [] (zeros n)) by (rewrite repeat_length; auto). apply nth_repeat.
    - intros _. unfold zeros. apply nth_repeat.
  Qed.

  Lemma oc_history rng (kw : kwargs T) n (o : obj) ps :
    rng_ok rng -> sane_kw kw -> kw_n kw = Some (Z.of_nat n) -> new_filter rng KOCNLMS kw = Ok o ->
    Forall (op_shape n) ps ->
    wf n (exec_all ps o) /\
    exists eps, oc_memory (match kw_mem kw with Some m => m | None => 100 end) n eps (o_mu o) (events_all ps o) (exec_all ps o).
  Proof.
    intros Hrng Hkw Hn Ho HF. pose proof (new_filter_wf rng KOCNLMS kw n o Hrng Hkw Hn Ho) as Hwf.
    destruct (oc_new rng kw n o Hkw Hn Ho) as (eps & H0).
    set (mem := match kw_mem kw with Some m => m | None => 100 end) in *.
    destruct (hist_exec_all n (oc_memory mem n eps (o_mu o))) with (ps := ps) (s := @nil (event T)) (o := o) as (H1 & H2); auto.
    - intros s o1 d x. apply oc_memory_learn.
    - intros s o1 x. apply oc_memory_predict.
    - split; [auto|]. exists eps. exact H1.
  Qed.

  (** ** C26 *)
  (** the index stays inside the memory and the buffers keep their shape, whatever the history *)
  Theorem C26_shape : forall n (o : obj) eps mem em mx md idx, reachable n o -> o_ext o = XOCNLMS eps mem em mx md idx ->
    idx < mem /\ length mx = mem /\ Forall (fun r => length r = n) mx /\ length md = mem.
  Proof.
    intros n o eps mem em mx md idx Hr E. apply reachable_wf in Hr as (_ & _ & Hx). rewrite E in Hx.
    destruct Hx as (_ & H1 & H2 & H3 & H4). auto.
  Qed.

  (** complete description of the input memory after any history of calls on a new filter *)
  Theorem C26_memory : forall rng (kw : kwargs T) n (o : obj) ps,
    rng_ok rng -> sane_kw kw -> kw_n kw = Some (Z.of_nat n) -> new_filter rng KOCNLMS kw = Ok o ->
    Forall (op_shape n) ps ->
    let mem := match kw_mem kw with Some m => m | None => 100 end in
    let evs := events_all ps o in
    exists eps mx md, o_ext (exec_all ps o) = XOCNLMS eps mem (ticks evs <? mem) mx md (ticks evs mod mem) /\
      forall i, i < mem -> nth i mx [] = match last_written mem i 0 evs None with Some x => x | None => zeros n end.
  Proof.
    intros rng kw n o ps Hrng Hkw Hn Ho HF mem evs.
    destruct (oc_history rng kw n o ps Hrng Hkw Hn Ho HF) as (_ & eps & _ & HM). fold mem evs in HM.
    destruct (o_ext (exec_all ps o)) as [| | | | | | | | | | | eps' mem' em mx md idx | | | |]; try contradiction.
    destruct HM as (-> & -> & -> & -> & HS). exists eps, mx, md. split; [reflexivity|]. intros i Hi; apply HS; auto.
  Qed.

  Lemma no_pred_even mem i : Nat.even mem = true -> Nat.even i = true -> 1 <= mem -> forall evs c acc, no_prediction evs ->
    Nat.even c = true -> last_written mem i c evs acc = acc.
  Proof.
    intros Hm Hi H1 evs; induction evs as [|[x|d x] evs IH]; intros c acc Hn Hc; [reflexivity|inversion Hn; contradiction|].
    inversion Hn as [|? ? _ Hn']; subst. cbn [last_written].
    destruct (Nat.eqb_spec ((c + 1) mod mem) i) as [E|_].
    - exfalso. assert (HO : Nat.even (c + 1) = false).
      { rewrite Nat.even_add, Hc. reflexivity. }
      rewrite (Nat.div_mod (c + 1) mem) in HO by lia. rewrite E, Nat.even_add, Nat.even_mul, Hm, Hi in HO. discriminate.
    - apply IH; auto. rewrite Nat.even_add, Hc; reflexivity.
  Qed.

  (** with an even memory size, a filter that only runs and adapts never writes the even slots: half of the
      memory stays at its initial zeros *)
  Theorem C26_even_slots_never_written : forall rng (kw : kwargs T) n (o : obj) ps,
    rng_ok rng -> sane_kw kw -> kw_n kw = Some (Z.of_nat n) -> new_filter rng KOCNLMS kw = Ok o ->
    Forall (op_shape n) ps -> no_prediction (events_all ps o) ->
    let mem := match kw_mem kw with Some m => m | None => 100 end in
    Nat.even mem = true ->
    exists eps em mx md idx, o_ext (exec_all ps o) = XOCNLMS eps mem em mx md idx /\
      forall i, i < mem -> Nat.even i = true -> nth i mx [] = zeros n /\ nth i md n0 = n0.
  Proof.
    intros rng kw n o ps Hrng Hkw Hn Ho HF Hno mem Hev.
    destruct (oc_history rng kw n o ps Hrng Hkw Hn Ho HF) as (_ & eps & _ & HM). fold mem in HM.
    destruct (o_ext (exec_all ps o)) as [| | | | | | | | | | | eps' mem' em mx md idx | | | |]; try contradiction.
    destruct HM as (-> & -> & _ & _ & HS). exists eps, em, mx, md, idx. split; [reflexivity|]. intros i Hi Hiev.
    destruct (HS i Hi) as (H1 & H2).
    rewrite (no_pred_even mem i) in H1, H2 by (auto; lia). auto.
  Qed.

  (** the input vectors learned, in order *)
  Definition inputs (evs : list (event T)) : mat :=
    flat_map (fun ev => match ev with Learned _ x => [x] | Predicted _ => [] end) evs.

  Lemma inputs_length evs : no_prediction evs -> length (inputs evs) = length evs.
  Proof.
    induction evs as [|[x|d x] evs IH]; intros H; [reflexivity|inversion H; contradiction|].
    cbn. f_equal. apply IH. exact (Forall_inv_tail H).
  Qed.
  Lemma no_pred_ticks evs : no_prediction evs -> ticks evs = 2 * length evs.
  Proof.
    induction evs as [|[x|d x] evs IH]; intros H; [reflexivity|inversion H; contradiction|].
    cbn [ticks length]. rewrite IH by exact (Forall_inv_tail H). lia.
  Qed.

  (** without predictions, sample j goes to slot (2j + 1) mod mem; a slot keeps its last sample *)
  Lemma last_written_no_pred mem i j : forall evs c acc, no_prediction evs -> j < length evs ->
    (c + 2 * j + 1) mod mem = i ->
    (forall k, j < k < length evs -> (c + 2 * k + 1) mod mem <> i) ->
    last_written mem i c evs acc = Some (nth j (inputs evs) []).
  Proof.
    induction j as [|j IH]; intros evs c acc Hn Hj Hi Hk.
    - destruct evs as [|[x|d x] evs]; [cbn in Hj; lia|inversion Hn; contradiction|].
      cbn [last_written inputs flat_map app nth].
      replace (c + 2 * 0 + 1) with (c + 1) in Hi by lia. apply Nat.eqb_eq in Hi. rewrite Hi.
      assert (Hk' : forall k, k < length evs -> (c + 2 + 2 * k + 1) mod mem <> i).
      { intros k Hkl. replace (c + 2 + 2 * k + 1) with (c + 2 * S k + 1) by lia. apply Hk. cbn; lia. }
      pose proof (Forall_inv_tail Hn) as Hn'. clear - Hk' Hn'. revert Hk'. generalize (c + 2) as c'. generalize (Some x).
      induction evs as [|[y|d y] evs IH]; intros acc c' Hk'; [reflexivity|inversion Hn'; contradiction|].
      cbn [last_written]. destruct (Nat.eqb_spec ((c' + 1) mod mem) i) as [E|_].
      + exfalso. apply (Hk' 0); [cbn; lia|]. rewrite <- E. f_equal. lia.
      + apply IH; [exact (Forall_inv_tail Hn')|]. intros k Hkl.
        replace (c' + 2 + 2 * k + 1) with (c' + 2 * S k + 1) by lia. apply Hk'. cbn; lia.
    - destruct evs as [|[x|d x] evs]; [cbn in Hj; lia|inversion Hn; contradiction|].
      cbn [last_written inputs flat_map app nth]. apply IH.
      + exact (Forall_inv_tail Hn).
      + cbn in Hj; lia.
      + rewrite <- Hi. f_equal. lia.
      + intros k Hkl. replace (c + 2 + 2 * k + 1) with (c + 2 * S k + 1) by lia. apply Hk. cbn; lia.
  Qed.

  Lemma odd_slots mem a b : Nat.odd mem = true -> a < b -> b < a + mem -> (2 * a + 1) mod mem <> (2 * b + 1) mod mem.
  Proof.
    intros Ho Hab Hb E. apply Nat.odd_spec in Ho as (p & Hp).
    pose proof (Nat.div_mod (2 * a + 1) mem ltac:(lia)) as Ha. pose proof (Nat.div_mod (2 * b + 1) mem ltac:(lia)) as Hb'.
    rewrite E in Ha. set (q := (2 * a + 1) / mem) in *. set (q' := (2 * b + 1) / mem) in *.
    set (r := (2 * b + 1) mod mem) in *.
    assert (Hq : mem * q' = mem * q + 2 * (b - a)) by lia.
    assert (H1 : q < q') by nia. assert (H2 : q' < q + 2) by nia. assert (q' = q + 1) by lia. subst q'. nia.
  Qed.

  Lemma NoDup_map_on {A B} (f : A -> B) l : (forall a b, In a l -> In b l -> f a = f b -> a = b) -> NoDup l -> NoDup (map f l).
  Proof.
    induction l as [|a l IH]; intros Hf HN; [constructor|]. inversion HN as [|? ? Ha HN']; subst. cbn. constructor.
    - intros Hi. apply in_map_iff in Hi as (b & Eb & Hb). apply Ha. rewrite <- (Hf b a); auto; [right; exact Hb|left; reflexivity].
    - apply IH; auto. intros b c Hb Hc. apply Hf; right; auto.
  Qed.

  Lemma map_nth_seq {A} (l : list A) dflt : map (fun i => nth i l dflt) (seq 0 (length l)) = l.
  Proof.
    apply (nth_ext _ _ dflt dflt); rewrite map_length, seq_length; [reflexivity|]. intros i Hi.
    rewrite (nth_indep _ dflt (nth 0 l dflt)) by (rewrite map_length, seq_length; exact Hi).
    rewrite (map_nth (fun i => nth i l dflt)), seq_nth by exact Hi. reflexivity.
  Qed.

  (** with an odd memory size, a filter that only runs and adapts holds exactly the last mem inputs *)
  Theorem C26_odd_memory_holds_last_inputs : forall rng (kw : kwargs T) n (o : obj) ps,
    rng_ok rng -> sane_kw kw -> kw_n kw = Some (Z.of_nat n) -> new_filter rng KOCNLMS kw = Ok o ->
    Forall (op_shape n) ps -> no_prediction (events_all ps o) ->
    let mem := match kw_mem kw with Some m => m | None => 100 end in
    let xs := inputs (events_all ps o) in
    Nat.odd mem = true -> mem <= length xs ->
    exists eps mx md idx, o_ext (exec_all ps o) = XOCNLMS eps mem false mx md idx /\
      Permutation mx (skipn (length xs - mem) xs).
  Proof.
    intros rng kw n o ps Hrng Hkw Hn Ho HF Hno mem xs Hodd Hlen.
    destruct (oc_history rng kw n o ps Hrng Hkw Hn Ho HF) as (Hwf & eps & _ & HM). fold mem in HM.
    unfold xs in *. clear xs.
    set (evs := events_all ps o) in *. rewrite inputs_length in Hlen |- * by exact Hno.
    destruct (o_ext (exec_all ps o)) as [| | | | | | | | | | | eps' mem' em mx md idx | | | |] eqn:E; try contradiction.
    destruct HM as (-> & -> & -> & -> & HS). exists eps, mx, md, (ticks evs mod mem).
    rewrite no_pred_ticks by exact Hno. split.
    - replace (2 * length evs <? mem) with false; [reflexivity|]. symmetry; apply Nat.ltb_ge; lia.
    - destruct Hwf as (_ & _ & Hx). rewrite E in Hx. destruct Hx as (Hm1 & Hlx & _).
      set (N := length evs) in *.
      set (sigma := fun j => (2 * (N - mem + j) + 1) mod mem).
      assert (Hs : Permutation (map sigma (seq 0 mem)) (seq 0 mem)).
      { apply NoDup_Permutation_bis.
        - apply NoDup_map_on; [|apply seq_NoDup]. intros a b Ha Hb Hab. apply in_seq in Ha, Hb.
          destruct (lt_eq_lt_dec a b) as [[H|H]|H]; [exfalso|exact H|exfalso].
          + apply (odd_slots mem (N - mem + a) (N - mem + b)); auto; lia.
          + apply (odd_slots mem (N - mem + b) (N - mem + a)); auto; lia.
        - rewrite map_length; lia.
        - intros k Hk. apply in_map_iff in Hk as (j & <- & _). apply in_seq. split; [lia|]. cbn. apply Nat.mod_upper_bound. lia. }
      rewrite <- (map_nth_seq mx []) at 1. rewrite Hlx.
      rewrite <- (Permutation_map (fun i => nth i mx []) Hs). rewrite map_map.
      rewrite <- (map_nth_seq (skipn (N - mem) (inputs evs)) []).
      rewrite skipn_length, inputs_length by exact Hno. replace (length evs - (N - mem)) with mem by (unfold N in *; lia).
      erewrite map_ext_in; [reflexivity|]. intros j Hj. apply in_seq in Hj. cbv beta.
      assert (Hb : sigma j < mem) by (apply Nat.mod_upper_bound; lia).
      destruct (HS (sigma j) Hb) as (-> & _).
      rewrite (last_written_no_pred mem (sigma j) (N - mem + j)).
      + symmetry. clear. revert j. generalize (N - mem). intros k j. revert k. induction (inputs evs) as [|a l IH]; intros [|k]; cbn [skipn plus nth]; auto.
        destruct j; reflexivity.
      + exact Hno.
      + fold N; lia.
      + reflexivity.
      + intros k Hk E2. fold N in Hk. apply (odd_slots mem (N - mem + j) k); auto; lia.
  Qed.
End Props.
