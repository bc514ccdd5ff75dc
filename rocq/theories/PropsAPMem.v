(** Property C23: the AP filter always works on the window of the last [order] samples (any arithmetic). *)
From Coq Require Import QArith.
From Verif Require Import Py Num NumQ Numpy Filters Registry Spec StructProofs RunProofs Reach Steps PropsRun.
Open Scope nat_scope.

Section Spec.
  Context {T : Type} {NT : Num T}.
  Notation vec := (list T).
  Notation mat := (list (list T)).
  Notation obj := (obj T).

  (** ** Specification *)
  (** the last [order] elements of a history, newest first, completed with [pad] *)
  Definition window {A} (order : nat) (pad : A) (l : list A) : list A := firstn order (rev l ++ repeat pad order).

  (** the samples (target, input) that a loop of adapt calls gives to the filter: it stops after the sample
      whose adapt raised *)
  Fixpoint fed_loop (d : vec) (x : mat) (o : obj) : list (T * vec) :=
    match d, x with
    | d0 :: d', x0 :: x' =>
        (d0, x0) :: match adapt d0 x0 o with (o', Ok _) => fed_loop d' x' o' | _ => [] end
    | _, _ => []
    end.
  (** run refuses series of different lengths *)
  Definition fed_run (d : vec) (x : mat) (o : obj) : list (T * vec) :=
    if length d =? length x then fed_loop d x o else [].
  (** epochs over the training part, then the test part; an exception ends it *)
  Fixpoint fed_pretrained (epochs : nat) (d1 : vec) (x1 : mat) (d2 : vec) (x2 : mat) (o : obj) : list (T * vec) :=
    match epochs with
    | O => fed_run d2 x2 o
    | S ep => fed_run d1 x1 o ++
        match run d1 x1 o with (o', Ok _) => fed_pretrained ep d1 x1 d2 x2 o' | _ => [] end
    end.
  Definition fed (p : op) (o : obj) : list (T * vec) :=
    match p with
    | OpPredict _ => []
    | OpAdapt d x => [(d, x)]
    | OpRun d x => fed_run d x o
    | OpPretrained d x nt ep =>
        let N := ntrunc (nmul (nofnat (length d)) nt) in
        fed_pretrained ep (slice_to d N) (slice_to x N) (slice_from d N) (slice_from x N) o
    end.
  Fixpoint fed_all (ps : list op) (o : obj) : list (T * vec) :=
    match ps with [] => [] | p :: ps' => fed p o ++ fed_all ps' (exec p o) end.

  (** the memory of the filter holds this window of the history: row j of the transposed input matrix is the
      j-th newest input, entry j of the target vector the j-th newest target *)
  Definition memory_is (order n : nat) (samples : list (T * vec)) (o : obj) : Prop :=
    match o_ext o with
    | XAP ord xm dm _ _ _ _ =>
        ord = order /\ transpose order xm = window order (zeros n) (map snd samples) /\
        dm = window order n0 (map fst samples)
    | _ => False
    end.
End Spec.

Section Props.
  Context {T : Type} {NT : Num T}.
  Notation vec := (list T).
  Notation mat := (list (list T)).
  Notation obj := (obj T).

  Lemma window_push {A} order (pad : A) l a : 1 <= order ->
    window order pad (l ++ [a]) = a :: firstn (order - 1) (window order pad l).
  Proof.
    intros Ho; unfold window. rewrite rev_app_distr. cbn [rev app].
    rewrite firstn_firstn, Nat.min_l by lia.
    destruct order as [|k]; [lia|]. replace (S k - 1) with k by lia. cbn [firstn]. f_equal.
  Qed.

  Lemma window_length {A} order (pad : A) l : length (window order pad l) = order.
  Proof. unfold window. rewrite firstn_length, app_length, repeat_length. lia. Qed.

  Lemma column_push_S order (xm : mat) x j : length x = length xm -> S j < order -> rowsl order xm ->
    column (S j) (push_x order xm x) = column j xm.
  Proof.
    intros Hl Hj HF; unfold column, push_x. revert x Hl.
    induction HF as [|r xm Hr HF IH]; intros [|a x] Hl; simpl in *; try discriminate; auto.
    f_equal; [|apply IH; lia].
    rewrite <- (firstn_skipn (order - 1) r) at 2. rewrite app_nth1; auto. rewrite firstn_length. lia.
  Qed.

  Lemma transpose_push order (xm : mat) x : 1 <= order -> length x = length xm -> rowsl order xm ->
    transpose order (push_x order xm x) = x :: firstn (order - 1) (transpose order xm).
  Proof.
    intros Ho Hl HF. pose proof (transpose_push_0 order xm x Ho Hl) as H0.
    destruct order as [|k]; [lia|]. replace (S k - 1) with k by lia.
    unfold transpose in *. cbn [seq map] in H0 |- *. cbn [nth] in H0. f_equal; [exact H0|].
    rewrite <- seq_shift, map_map.
    transitivity (map (fun j => column j xm) (seq 0 k)).
    - apply map_ext_in. intros j Hj. apply in_seq in Hj. apply column_push_S; auto. lia.
    - replace (map (fun j : nat => column j xm) (seq 0 k)) with (firstn k (map (fun j : nat => column j xm) (seq 0 (S k)))).
      + cbn [seq map]. rewrite seq_shift. reflexivity.
      + rewrite seq_S, map_app, firstn_app, map_length, seq_length, Nat.sub_diag, firstn_O, app_nil_r.
        apply firstn_all2. rewrite map_length, seq_length; lia.
  Qed.

  Lemma memory_hist order n s (o : obj) h : memory_is order n s (set_hist h o) <-> memory_is order n s o.
  Proof. reflexivity. Qed.

  Lemma memory_push order n s (o : obj) d x : wf n o -> length x = n -> memory_is order n s o ->
    memory_is order n (s ++ [(d, x)]) (fst (adapt d x o)).
  Proof.
    intros Hwf Hl HM. unfold memory_is in HM. destruct (o_ext o) as [| | | | | | | | | | | | | | | ord xm dm ii id ym em] eqn:E; try contradiction.
    destruct HM as (-> & HX & HD).
    rewrite (adapt_AP_step n o d x order xm dm ii id ym em Hwf Hl E).
    pose proof Hwf as (_ & _ & Hx). rewrite E in Hx. destruct Hx as (Ho & Hlx & Hr & _).
    assert (HT : transpose order (push_x order xm x) = window order (zeros n) (map snd (s ++ [(d, x)]))).
    { rewrite transpose_push by (auto; congruence). rewrite map_app. cbn [map snd]. rewrite window_push by auto.
      rewrite HX; reflexivity. }
    assert (HT' : push_d order dm d = window order n0 (map fst (s ++ [(d, x)]))).
    { unfold push_d. rewrite map_app. cbn [map fst]. rewrite window_push by auto. rewrite HD; reflexivity. }
    destruct (nsolve _ _); cbn [fst]; unfold memory_is; cbn [set_w set_ext o_ext]; auto.
  Qed.

  Lemma fed_loop_hist d x (o : obj) h : fed_loop d x (set_hist h o) = fed_loop d x o.
  Proof.
    revert x o; induction d as [|d0 d IH]; intros [|x0 x] o; simpl; auto. f_equal.
    rewrite blind_adapt. destruct (adapt d0 x0 o) as [o' [u|ex]]; cbn [fst snd]; auto.
  Qed.

  Lemma memory_loop order n d : forall x s (o : obj), wf n o -> rowsl n x -> memory_is order n s o ->
    memory_is order n (s ++ fed_loop d x o) (fst (adapt_all d x o)).
  Proof.
    induction d as [|d0 d IH]; intros x s o Hwf Hx HM; [simpl; rewrite app_nil_r; auto|].
    destruct x as [|x0 x]; [simpl; rewrite app_nil_r; auto|]. inversion Hx as [|? ? Hx0 Hx']; subst.
    cbn [fed_loop adapt_all]. unfold bind.
    pose proof (memory_push order _ s o d0 x0 Hwf eq_refl HM) as H1.
    destruct (adapt_ok _ o d0 x0 Hwf eq_refl) as (o1 & r1 & E1 & Hwf1 & _). rewrite E1 in H1 |- *. cbn [fst] in H1.
    destruct r1 as [[]|ex]; [|exact H1].
    change (s ++ (d0, x0) :: fed_loop d x o1) with (s ++ [(d0, x0)] ++ fed_loop d x o1). rewrite app_assoc. apply IH; auto.
  Qed.

  Lemma memory_run order n s (o : obj) d x : wf n o -> rowsl n x -> memory_is order n s o ->
    memory_is order n (s ++ fed_run d x o) (fst (run d x o)).
  Proof.
    intros Hwf Hx HM. unfold fed_run. destruct (Nat.eqb_spec (length d) (length x)) as [Hl|Hl].
    - destruct x as [|x0 x]; [destruct d; [simpl; rewrite app_nil_r; exact HM|discriminate]|].
      destruct (run_fst n o d (x0 :: x) Hwf Hx Hl) as (h & ->); [discriminate|]. apply memory_hist.
      apply memory_loop; auto.
    - rewrite run_bad_length by assumption. rewrite app_nil_r. exact HM.
  Qed.

  Lemma memory_pretrained order n ep d1 x1 d2 x2 : rowsl n x1 -> rowsl n x2 -> forall s (o : obj), wf n o -> memory_is order n s o ->
    memory_is order n (s ++ fed_pretrained ep d1 x1 d2 x2 o)
      (fst (bind (repeat_m ep (bind (run d1 x1) (fun _ => ret tt))) (fun _ => run d2 x2) o)).
  Proof.
    intros H1 H2; induction ep as [|ep IH]; intros s o Hwf HM; cbn [fed_pretrained repeat_m].
    - unfold bind, ret. apply memory_run; auto.
    - pose proof (memory_run order n s o d1 x1 Hwf H1 HM) as HM1. pose proof (run_wf n d1 x1 o Hwf H1) as Hwf1.
      unfold bind in *. destruct (run d1 x1 o) as [o' [v|ex]]; cbn [fst] in *.
      + unfold ret at 1. cbv beta iota. rewrite app_assoc. apply IH; auto.
      + rewrite app_nil_r. exact HM1.
  Qed.

  Lemma memory_exec order n s (o : obj) p : wf n o -> op_shape n p -> memory_is order n s o ->
    memory_is order n (s ++ fed p o) (exec p o).
  Proof.
    intros Hwf Hs HM. destruct p as [x|d x|d x|d x nt ep]; cbn [fed exec op_shape] in *.
    - assert (Hoc : is_OCNLMS o = false) by (unfold memory_is in HM; unfold is_OCNLMS; destruct (o_ext o); auto; contradiction).
      rewrite predict_plain by exact Hoc. rewrite app_nil_r. exact HM.
    - apply memory_push; auto.
    - apply memory_run; auto.
    - apply memory_pretrained; auto; [apply firstn_rows|apply skipn_rows]; exact Hs.
  Qed.

  Lemma memory_exec_all order n ps : forall s (o : obj), wf n o -> Forall (op_shape n) ps -> memory_is order n s o ->
    memory_is order n (s ++ fed_all ps o) (exec_all ps o) /\ wf n (exec_all ps o).
  Proof.
    induction ps as [|p ps IH]; intros s o Hwf HF HM; cbn [fed_all exec_all fold_left].
    - rewrite app_nil_r; auto.
    - inversion HF as [|? ? Hp HF']; subst. rewrite app_assoc. apply IH; auto.
      + apply exec_wf; auto.
      + apply memory_exec; auto.
  Qed.

  Lemma firstn_repeat {A} (a : A) k m : k <= m -> firstn k (repeat a m) = repeat a k.
  Proof. revert m; induction k as [|k IH]; intros [|m] H; simpl; auto; [lia|]. f_equal; apply IH; lia. Qed.

  Lemma transpose_zeros2 n order : transpose order (zeros2 n order) = repeat (zeros n) order.
  Proof.
    unfold transpose. transitivity (map (fun _ : nat => (zeros n : vec)) (seq 0 order)).
    - apply map_ext_in. intros j Hj; apply in_seq in Hj. unfold column, zeros2.
      clear. induction n as [|n IH]; [reflexivity|]. cbn [repeat map]. rewrite IH.
      change (zeros (S n) : vec) with (n0 :: zeros n : vec). unfold zeros at 1. rewrite nth_repeat. reflexivity.
    - generalize 0 as s. induction order as [|k IH]; intros s; simpl; auto. f_equal; apply IH.
  Qed.

  Lemma transpose_transpose n order (A : mat) : length A = n -> rowsl order A -> transpose n (transpose order A) = A.
  Proof.
    intros Hn HF. apply (nth_ext _ _ [] []); [rewrite transpose_length; auto|].
    rewrite transpose_length. intros i Hi. unfold transpose at 1.
    rewrite (nth_indep _ [] (column 0 (transpose order A))) by (rewrite map_length, seq_length; auto).
    rewrite (map_nth (fun j => column j (transpose order A))), seq_nth by auto. cbn [Nat.add].
    unfold column at 1. unfold transpose. rewrite map_map.
    pose proof (nth_rows order A i HF ltac:(lia)) as Hr.
    apply (nth_ext _ _ n0 n0); [rewrite map_length, seq_length; auto|].
    rewrite map_length, seq_length. intros j Hj.
    rewrite (nth_indep _ n0 (nth i (column 0 A) n0)) by (rewrite map_length, seq_length; auto).
    rewrite (map_nth (fun j => nth i (column j A) n0)), seq_nth by auto. cbn [Nat.add]. unfold column.
    rewrite (nth_indep _ n0 (nth j [] n0)) by (rewrite map_length; lia).
    rewrite (map_nth (fun r => nth j r n0)). reflexivity.
  Qed.

  (** the parts of the AP object that never change *)
  Definition ap_config (order : nat) (ifc : T) (o : obj) : Prop :=
    match o_ext o with
    | XAP ord _ _ ii id _ _ => ord = order /\ ii = mscale ifc (identity order) /\ id = identity order
    | _ => False
    end.

  Lemma ap_config_new rng (kw : kwargs T) n o : kw_n kw = Some (Z.of_nat n) -> new_filter rng KAP kw = Ok o ->
    ap_config (match kw_order kw with Some k => k | None => 5 end) (match kw_ifc kw with Some v => v | None => nofQ (1 # 1000) end) o /\ True.
  Proof.
    intros Hn. unfold new_filter. destruct (kw_other kw); [discriminate|].
    destruct (existsb _ _); [discriminate|]. rewrite Hn.
    destruct (match kw_mu kw with Some _ => _ | None => _ end) as [mu|]; [|discriminate].
    destruct (init_base _ _ _ _ _) as [o0|]; cbn [rbind rmap]; [|discriminate]. rewrite Nat2Z.id. unfold opt.
    cbn [init_ext rbind rmap]. intros [= <-]. unfold ap_config; cbn [set_ext o_ext]. unfold opt. auto.
  Qed.

  Definition ap_inv order ifc mu (o : obj) : Prop := ap_config order ifc o /\ o_mu o = mu.

  Lemma ap_inv_adapt order ifc mu n (o : obj) d x : wf n o -> length x = n -> ap_inv order ifc mu o -> ap_inv order ifc mu (fst (adapt d x o)).
  Proof.
    intros Hwf Hl (HC & Hmu). unfold ap_config in HC. destruct (o_ext o) as [| | | | | | | | | | | | | | | ord xm dm ii id ym em] eqn:E; try contradiction.
    rewrite (adapt_AP_step n o d x ord xm dm ii id ym em Hwf Hl E).
    destruct (nsolve _ _); split; auto; unfold ap_config; cbn; auto.
  Qed.

  Lemma ap_inv_run order ifc mu n (o : obj) d x : wf n o -> rowsl n x -> ap_inv order ifc mu o -> ap_inv order ifc mu (fst (run d x o)).
  Proof.
    intros Hwf Hx HC. destruct (Nat.eq_dec (length d) (length x)) as [Hl|Hl]; [|rewrite run_bad_length by assumption; exact HC].
    destruct x as [|x0 x]; [destruct d; [exact HC|discriminate]|].
    destruct (run_fst n o d (x0 :: x) Hwf Hx Hl) as (h & ->); [discriminate|].
    enough (ap_inv order ifc mu (fst (adapt_all d (x0 :: x) o))) by exact H.
    revert Hx. generalize (x0 :: x) as xs. clear Hl x0 x. revert o Hwf HC.
    induction d as [|d0 d IH]; intros o Hwf HC [|x0 xs] Hx; auto. inversion Hx as [|? ? Hx0 Hx']; subst.
    cbn [adapt_all]. unfold bind. pose proof (ap_inv_adapt order ifc _ _ o d0 x0 Hwf eq_refl HC) as H1.
    destruct (adapt_ok _ o d0 x0 Hwf eq_refl) as (o1 & r1 & E1 & Hwf1 & _). rewrite E1 in H1 |- *. cbn [fst] in H1.
    destruct r1 as [[]|ex]; [|exact H1]. apply IH; auto.
  Qed.

  Lemma ap_inv_exec order ifc mu n (o : obj) p : wf n o -> op_shape n p -> ap_inv order ifc mu o -> ap_inv order ifc mu (exec p o).
  Proof.
    intros Hwf Hs HC. destruct p as [x|d x|d x|d x nt ep]; cbn [exec op_shape] in *.
    - assert (Hoc : is_OCNLMS o = false) by (destruct HC as (HC & _); unfold ap_config in HC; unfold is_OCNLMS; destruct (o_ext o); auto; contradiction).
      rewrite predict_plain by exact Hoc. exact HC.
    - eapply ap_inv_adapt; eauto.
    - eapply ap_inv_run; eauto.
    - unfold pretrained_run. set (N := ntrunc _). clearbody N.
      assert (H1 : rowsl n (slice_to x N)) by (apply firstn_rows; exact Hs).
      assert (H2 : rowsl n (slice_from x N)) by (apply skipn_rows; exact Hs).
      revert H1 H2. generalize (slice_to x N), (slice_from x N), (slice_to d N), (slice_from d N). clear x d Hs nt N.
      intros x1 x2 d1 d2 H1 H2. revert o Hwf HC.
      induction ep as [|ep IH]; intros o Hwf HC; cbn [repeat_m].
      + unfold bind, ret. eapply ap_inv_run; eauto.
      + pose proof (ap_inv_run order ifc mu n o d1 x1 Hwf H1 HC) as HM1. pose proof (run_wf n d1 x1 o Hwf H1) as Hwf1.
        unfold bind in *. destruct (run d1 x1 o) as [o' [v|ex]]; cbn [fst] in *; [|exact HM1].
        unfold ret at 1. cbv beta iota. apply IH; auto.
  Qed.

  Lemma ap_config_exec_all order ifc mu n ps : forall (o : obj), wf n o -> Forall (op_shape n) ps -> ap_inv order ifc mu o ->
    ap_inv order ifc mu (exec_all ps o) /\ wf n (exec_all ps o).
  Proof.
    induction ps as [|p ps IH]; intros o Hwf HF HM; [auto|]. inversion HF as [|? ? Hp HF']; subst.
    apply (IH (exec p o)); auto; [apply exec_wf; auto|eapply ap_inv_exec; eauto].
  Qed.

  (** ** C23 *)
  (** after any history of calls on a new AP filter its memory is the window of the samples it was given *)
  Theorem C23_memory_window : forall rng (kw : kwargs T) n (o : obj) ps,
    rng_ok rng -> sane_kw kw -> kw_n kw = Some (Z.of_nat n) -> new_filter rng KAP kw = Ok o ->
    Forall (op_shape n) ps ->
    memory_is (match kw_order kw with Some k => k | None => 5 end) n (fed_all ps o) (exec_all ps o).
  Proof.
    intros rng kw n o ps Hrng Hkw Hn Ho HF.
    pose proof (new_filter_wf rng KAP kw n o Hrng Hkw Hn Ho) as Hwf.
    refine (proj1 (memory_exec_all _ n ps [] o Hwf HF _)).
    revert Ho. unfold new_filter. destruct (kw_other kw); [discriminate|].
    destruct (existsb _ _); [discriminate|]. rewrite Hn.
    destruct (match kw_mu kw with Some _ => _ | None => _ end) as [mu|]; [|discriminate].
    destruct (init_base _ _ _ _ _) as [o0|]; cbn [rbind rmap]; [|discriminate]. rewrite Nat2Z.id. unfold opt.
    cbn [init_ext rbind rmap]. intros [= <-]. unfold memory_is; cbn [set_ext o_ext].
    split; [reflexivity|]. unfold window; cbn [map rev app].
    split; [rewrite transpose_zeros2|]; rewrite firstn_repeat; reflexivity.
  Qed.

  (** a run that returns has fed all its samples, in order *)
  Theorem C23_run_feeds_all : forall n (o : obj) d x v, reachable n o -> rows_of n x ->
    snd (run d x o) = Ok v -> fed_run d x o = combine d x.
  Proof.
    intros n o d x v Hr Hx HO. apply reachable_wf in Hr.
    destruct (Nat.eq_dec (length d) (length x)) as [Hl|Hl]; [|rewrite run_bad_length in HO by assumption; discriminate].
    unfold fed_run. rewrite (proj2 (Nat.eqb_eq _ _) Hl).
    destruct x as [|x0 x]; [destruct d; [reflexivity|discriminate]|].
    rewrite (run_snd n o d (x0 :: x) Hr Hx Hl) in HO by discriminate.
    assert (HA : snd (adapt_all d (x0 :: x) o) = Ok tt) by (destruct (snd (adapt_all d (x0 :: x) o)) as [[]|]; [reflexivity|discriminate]).
    clear HO. revert HA. generalize (x0 :: x) as xs. clear. revert o.
    induction d as [|d0 d IH]; intros o [|x0 xs] HA; auto. cbn [fed_loop combine]. f_equal.
    apply adapt_all_Ok_cons in HA as (H1 & H2 & _).
    destruct (adapt d0 x0 o) as [o' r]. cbn [fst snd] in *. subst r. apply IH. exact H2.
  Qed.

  (** one adapt call on a filter with a known memory *)
  Lemma ap_update_state order ifc mu n (now : obj) past d x :
    wf n now -> ap_inv order ifc mu now -> memory_is order n past now -> length x = n ->
    let samples := past ++ [(d, x)] in
    let X := window order (zeros n) (map snd samples) in
    let D := window order n0 (map fst samples) in
    let A := map2 (map2 nadd) (map (fun a => map (fun b => ndot a b) X) X) (mscale ifc (identity order)) in
    match nsolve A (identity order) with
    | None => snd (adapt d x now) = Err LinAlgError /\ o_w (fst (adapt d x now)) = o_w now
    | Some G => snd (adapt d x now) = Ok tt /\
        o_w (fst (adapt d x now)) =
          map2 nadd (o_w now) (vscale mu (mv (transpose n X) (mv G (map2 nsub D (mv X (o_w now))))))
    end.
  Proof.
    intros Hwf' (HC' & Hmu) HMnow Hl samples X D A.
    unfold ap_config in HC'. destruct (o_ext now) as [| | | | | | | | | | | | | | | ord xm dm ii id ym em] eqn:E; try contradiction.
    destruct HC' as (-> & -> & ->).
    unfold memory_is in HMnow. rewrite E in HMnow. destruct HMnow as (_ & HX & HD).
    pose proof Hwf' as (_ & _ & Hx). rewrite E in Hx. destruct Hx as (Hord1 & Hlx & Hr & _).
    rewrite (adapt_AP_step n now d x order xm dm _ _ ym em Hwf' Hl E).
    assert (HT : transpose order (push_x order xm x) = X).
    { rewrite transpose_push by (auto; congruence). unfold X, samples. rewrite map_app. cbn [map snd]. rewrite window_push by auto.
      rewrite HX; reflexivity. }
    assert (HT' : push_d order dm d = D).
    { unfold push_d, D, samples. rewrite map_app. cbn [map fst]. rewrite window_push by auto. rewrite HD; reflexivity. }
    rewrite HT'. cbv zeta.
    assert (HA : mm order (transpose order (push_x order xm x)) (push_x order xm x) = map (fun a => map (fun b => ndot a b) X) X).
    { unfold mm. rewrite HT. reflexivity. }
    rewrite HA, HT. fold A.
    assert (Hpx : push_x order xm x = transpose n X).
    { rewrite <- HT. symmetry. apply transpose_transpose.
      - apply push_x_length; auto.
      - apply push_x_rows; auto. }
    rewrite Hpx. destruct (nsolve A (identity order)) as [G|]; cbn [fst snd set_w set_ext o_w]; [|auto].
    rewrite Hmu. auto.
  Qed.

  (** adapt is the affine projection update on that window, whatever the history was: with X the matrix whose
      rows are the last [order] inputs and D the last [order] targets (both zero-padded),
      w := w + mu X' (X X' + ifc I)^-1 (D - X w) *)
  Theorem C23_update : forall rng (kw : kwargs T) n (o : obj) ps d x,
    rng_ok rng -> sane_kw kw -> kw_n kw = Some (Z.of_nat n) -> new_filter rng KAP kw = Ok o ->
    Forall (op_shape n) ps -> length x = n ->
    let order := match kw_order kw with Some k => k | None => 5 end in
    let ifc := match kw_ifc kw with Some v => v | None => nofQ (1 # 1000) end in
    let samples := fed_all ps o ++ [(d, x)] in
    let X := window order (zeros n) (map snd samples) in
    let D := window order n0 (map fst samples) in
    let now := exec_all ps o in
    let A := map2 (map2 nadd) (map (fun a => map (fun b => ndot a b) X) X) (mscale ifc (identity order)) in
    match nsolve A (identity order) with
    | None => snd (adapt d x now) = Err LinAlgError /\ o_w (fst (adapt d x now)) = o_w now
    | Some G => snd (adapt d x now) = Ok tt /\
        o_w (fst (adapt d x now)) =
          map2 nadd (o_w now) (vscale (o_mu o) (mv (transpose n X) (mv G (map2 nsub D (mv X (o_w now))))))
    end.
  Proof.
    intros rng kw n o ps d x Hrng Hkw Hn Ho HF Hl order ifc samples X D now A.
    pose proof (new_filter_wf rng KAP kw n o Hrng Hkw Hn Ho) as Hwf.
    destruct (ap_config_new rng kw n o Hn Ho) as (HC & _).
    fold order ifc in HC.
    destruct (ap_config_exec_all order ifc (o_mu o) n ps o Hwf HF (conj HC eq_refl)) as (HC' & Hwf').
    exact (ap_update_state order ifc (o_mu o) n now (fed_all ps o) d x Hwf' HC'
             (C23_memory_window rng kw n o ps Hrng Hkw Hn Ho HF) Hl).
  Qed.
End Props.

(** *** The hypotheses can be met: order 2, a history with a prediction, a rejected run, a run and an adapt *)
Definition qsolve2 (A B : list (list Q)) : option (list (list Q)) :=
  match A, B with
  | [[a; b]; [c; d]], [[p; q]; [r; s]] =>
      let det := (a * d - b * c)%Q in
      if Qeq_bool det 0 then None
      else Some [[Qred ((d * p - b * r) / det); Qred ((d * q - b * s) / det)];
                 [Qred ((a * r - c * p) / det); Qred ((a * s - c * q) / det)]]%Q
  | _, _ => None
  end.
#[local] Instance Q2 : Num Q := QNum qsolve2.
Definition ap_kw : kwargs Q :=
  mkKw (Some 2%Z) (Some 1%Q) (Some (WVec [0; 0]%Q)) None None None None None (Some 2) (Some 1%Q) None false.
Definition ap_o : obj Q := get_ok obj0 (new_filter rng0 KAP ap_kw).
Definition ap_hist : list op :=
  [OpPredict [1; 1]%Q; OpRun [1]%Q []; OpRun [1; 2; 3]%Q [[1; 0]; [0; 1]; [1; 1]]%Q; OpAdapt 5%Q [2; 1]%Q].
Example C23_hypotheses : rng_ok rng0 /\ sane_kw ap_kw /\ new_filter rng0 KAP ap_kw = Ok ap_o /\
  Forall (op_shape 2) ap_hist /\
  fed_all ap_hist ap_o = [(1, [1; 0]); (2, [0; 1]); (3, [1; 1]); (5, [2; 1])]%Q /\
  window 2 [0; 0]%Q (map snd (fed_all ap_hist ap_o)) = [[2; 1]; [1; 1]]%Q /\
  snd (run [1; 2; 3]%Q [[1; 0]; [0; 1]; [1; 1]]%Q ap_o) <> Err LinAlgError.
Proof.
  split; [intros k; apply repeat_length|]. split; [split; intros m [= <-]; lia|].
  split; [vm_compute; reflexivity|]. split; [repeat constructor|].
  split; [vm_compute; reflexivity|]. split; [vm_compute; reflexivity|]. vm_compute; discriminate.
Qed.
