(** run in terms of adapt, histories of calls, reachability (any arithmetic). *)
From Coq Require Import QArith.
From Verif Require Import Py Num Numpy Filters Registry Spec StructProofs.
Open Scope nat_scope.

Section S.
  Context {T : Type} {NT : Num T}.
  Notation vec := (list T).
  Notation mat := (list (list T)).
  Notation obj := (obj T).
  Notation ext := (ext T).

  (** ** Methods neither read nor write w_history *)
  Lemma wf_set_hist n (o : obj) h : wf n o -> wf n (set_hist h o).
  Proof. intros H; exact H. Qed.

  Lemma soft_exn_set_hist (o : obj) h ex : soft_exn (set_hist h o) ex = soft_exn o ex.
  Proof. reflexivity. Qed.

  Lemma read_memory_hist (o : obj) h :
    read_memory (set_hist h o) = (set_hist h (fst (read_memory o)), snd (read_memory o)).
  Proof.
    destruct o as [w n mu hi ex]; unfold read_memory, bind, get, set_hist, ret, raise, modify; simpl.
    destruct ex as [| | | | | | | | | | | eps mem em mx md idx | | | |]; try reflexivity.
    destruct em.
    - destruct (idx =? 0); simpl; destruct (length mx - 1 <? idx + 1); reflexivity.
    - destruct (idx <? length md); simpl; try reflexivity.
      destruct (length mx - 1 <? idx + 1); reflexivity.
  Qed.

  Lemma bind_modify {A} (f : obj -> obj) (k : unit -> M obj A) o :
    bind (modify f) k o = k tt (f o).
  Proof. reflexivity. Qed.

  Definition blind {A} (m : M obj A) : Prop :=
    forall o h, m (set_hist h o) = (set_hist h (fst (m o)), snd (m o)).

  Lemma blind_bind {A B} (m : M obj A) (f : A -> M obj B) :
    blind m -> (forall a, blind (f a)) -> blind (bind m f).
  Proof.
    intros Hm Hf o h; unfold bind; rewrite Hm.
    destruct (m o) as [o' [a|x]]; simpl; auto. apply Hf.
  Qed.
  Lemma blind_ret {A} (a : A) : blind (ret a).
  Proof. intros o h; reflexivity. Qed.
  Lemma blind_raise {A} x : blind (raise x : M obj A).
  Proof. intros o h; reflexivity. Qed.
  Lemma blind_lift {A} (r : result A) : blind (lift r).
  Proof. intros o h; reflexivity. Qed.
  Lemma blind_set_ext x : blind (modify (set_ext x)).
  Proof. intros o h; reflexivity. Qed.
  Lemma blind_set_w x : blind (modify (set_w x)).
  Proof. intros o h; reflexivity. Qed.
  Lemma blind_set_n x : blind (modify (set_n x)).
  Proof. intros o h; reflexivity. Qed.
  (** reading attributes other than the history *)
  Lemma blind_get {B} (f : obj -> M obj B) :
    (forall o, blind (f o)) -> (forall o h s, f (set_hist h o) s = f o s) -> blind (bind get f).
  Proof.
    intros Hf Hg o h; unfold bind, get. rewrite Hg. apply Hf.
  Qed.

  Ltac bl := repeat
    match goal with
    | |- blind (ret _) => apply blind_ret
    | |- blind (raise _) => apply blind_raise
    | |- blind (lift _) => apply blind_lift
    | |- blind (modify (set_ext _)) => apply blind_set_ext
    | |- blind (modify (set_w _)) => apply blind_set_w
    | |- blind (modify (set_n _)) => apply blind_set_n
    | |- blind (bind get _) => apply blind_get; [intros ?o|intros; reflexivity]
    | |- blind (bind _ _) => apply blind_bind; [|intros ?a]
    | |- blind (match ?x with _ => _ end) => destruct x
    end.

  Lemma blind_read : blind read_memory.
  Proof. intros o h; apply read_memory_hist. Qed.
  Lemma blind_update_x x : blind (update_memory_x x).
  Proof. unfold update_memory_x; bl. Qed.
  Lemma blind_update_d d : blind (update_memory_d d).
  Proof. unfold update_memory_d; bl. Qed.
  Lemma blind_predict x : blind (predict x).
  Proof.
    unfold predict; bl; try apply blind_read. Qed.
  Lemma blind_learning_rule e x : blind (learning_rule e x).
  Proof.
    unfold learning_rule; bl; try apply blind_read; try apply blind_update_x;
      try apply blind_update_d.
  Qed.
  Lemma blind_iadd_w dw : blind (iadd_w dw).
  Proof. unfold iadd_w; bl. Qed.
  Lemma blind_ap_push_x x : blind (ap_push_x x).
  Proof. unfold ap_push_x; bl. Qed.
  Lemma blind_ap_push_d x : blind (ap_push_d x).
  Proof. unfold ap_push_d; bl. Qed.
  Lemma blind_ap_estimate : blind ap_estimate.
  Proof. unfold ap_estimate; bl. Qed.
  Lemma blind_adapt d x : blind (adapt d x).
  Proof.
    unfold adapt, adapt_AP, adapt_base; bl;
      first [apply blind_ap_push_x | apply blind_ap_push_d | apply blind_ap_estimate
            | apply blind_predict | apply blind_learning_rule | apply blind_iadd_w].
  Qed.
  Lemma blind_adapt_all ds xs : blind (adapt_all ds xs).
  Proof.
    revert xs; induction ds as [|d ds IH]; intros [|x xs]; simpl; bl; auto using blind_adapt.
  Qed.

  (** ** adapt_all *)
  Lemma adapt_all_ok n ds xs o : wf n o -> rowsl n xs ->
    exists o' r, adapt_all ds xs o = (o', r) /\ wf n o' /\ o_hist o' = o_hist o /\ frame o o' /\
      (r = Ok tt \/ (exists ex, r = Err ex /\ soft_exn o ex)).
  Proof.
    revert xs o; induction ds as [|d ds IH]; intros xs o Hwf Hr; simpl.
    { do 2 eexists; split; [reflexivity|]; auto using frame_refl. }
    destruct xs as [|x xs].
    { do 2 eexists; split; [reflexivity|]; auto using frame_refl. }
    inversion Hr; subst.
    destruct (adapt_ok _ o d x Hwf eq_refl) as (o1 & r1 & E1 & Hwf1 & Hh1 & Hf1 & Hr1).
    unfold bind; rewrite E1.
    destruct Hr1 as [-> | (ex & -> & Hs & _)].
    - destruct (IH xs o1) as (o2 & r2 & E2 & Hwf2 & Hh2 & Hf2 & Hr2); auto.
      rewrite E2. do 2 eexists; split; [reflexivity|].
      split; [auto|split; [congruence|split; [eapply frame_trans; eauto|]]].
      destruct Hr2 as [-> | (ex & -> & Hs)]; auto.
      right; exists ex; split; auto.
      clear -Hs Hf1; unfold soft_exn in *; destruct Hf1 as (_ & Hmu & Hk).
      destruct (o_ext o), (o_ext o1); simpl in *; try discriminate; try contradiction; auto.
      rewrite <- Hmu; auto.
    - do 2 eexists; split; [reflexivity|]. repeat split; try apply Hwf1; try apply Hf1; auto.
      right; eauto.
  Qed.

  Lemma adapt_all_app ds1 xs1 ds2 xs2 (o : obj) : length ds1 = length xs1 ->
    adapt_all (ds1 ++ ds2) (xs1 ++ xs2) o =
    bind (adapt_all ds1 xs1) (fun _ => adapt_all ds2 xs2) o.
  Proof.
    revert xs1 o; induction ds1 as [|d ds1 IH]; intros [|x xs1] o Hl; simpl in *; try discriminate.
    - unfold bind, ret; reflexivity.
    - unfold bind at 1 2 3. destruct (adapt d x o) as [o1 [[]|ex]] eqn:E; auto.
      rewrite IH by lia. reflexivity.
  Qed.

  (** ** outputs as traces *)
  (** the output of a filter in state o for input x *)
  Definition pred_out (o : obj) (x : vec) : T :=
    if is_AP o then ndot x (o_w o)
    else match snd (predict x o) with Ok y => y | Err _ => n0 end.

  Fixpoint ytrace (ds : vec) (xs : mat) (o : obj) : vec :=
    match ds, xs with
    | d :: ds', x :: xs' => pred_out o x :: ytrace ds' xs' (fst (adapt d x o))
    | _, _ => []
    end.
  Fixpoint wtrace (ds : vec) (xs : mat) (o : obj) : mat :=
    match ds, xs with
    | d :: ds', x :: xs' => o_w o :: wtrace ds' xs' (fst (adapt d x o))
    | _, _ => []
    end.

  Lemma pred_out_hist h o x : pred_out (set_hist h o) x = pred_out o x.
  Proof.
    unfold pred_out. rewrite blind_predict.
    unfold is_AP; simpl. destruct (predict x o) as [o' r]; reflexivity.
  Qed.
  Lemma ytrace_hist ds xs o h : ytrace ds xs (set_hist h o) = ytrace ds xs o.
  Proof.
    revert xs o; induction ds as [|d ds IH]; intros [|x xs] o; simpl; auto.
    rewrite pred_out_hist, blind_adapt; simpl; rewrite IH; reflexivity.
  Qed.
  Lemma wtrace_hist ds xs o h : wtrace ds xs (set_hist h o) = wtrace ds xs o.
  Proof.
    revert xs o; induction ds as [|d ds IH]; intros [|x xs] o; simpl; auto.
    rewrite blind_adapt; simpl; rewrite IH; reflexivity.
  Qed.

  Lemma hist_set_ok n k (o : obj) h : wf n o -> o_hist o = Some h ->
    hist_set k o = (set_hist (set_nth k (o_w o) h) o, Ok tt).
  Proof.
    intros (Hw & Hn & _) Hh; unfold hist_set, bind, get; rewrite Hh, Hw, Hn, Nat.eqb_refl.
    reflexivity.
  Qed.

  Lemma transpose_push_0 order (xm : mat) (x : vec) : 1 <= order -> length x = length xm ->
    nth 0 (transpose order (push_x order xm x)) [] = x.
  Proof.
    intros Ho Hl; destruct order as [|k]; [lia|]. simpl.
    unfold column, push_x. clear Ho.
    revert x Hl; induction xm as [|r xm IH]; intros [|xi x] Hl; simpl in *; try discriminate; auto.
    f_equal; auto.
  Qed.

  Lemma run_body_ok n k o h d x : wf n o -> length x = n -> o_hist o = Some h ->
    run_body k d x o =
      (set_hist (set_nth k (o_w o) h) (fst (adapt d x o)),
       rmap (fun _ => (pred_out o x, nsub d (pred_out o x))) (snd (adapt d x o))).
  Proof.
    intros Hwf Hl Hh.
    set (h' := set_nth k (o_w o) h).
    unfold run_body, adapt; unfold bind at 1, get at 1.
    unfold pred_out; unfold bind at 1, get at 1; unfold bind at 1, get at 1.
    destruct (is_AP o) eqn:Hap.
    - (* AP *)
      unfold run_body_AP; unfold bind at 1; rewrite (hist_set_ok n) with (h := h) by assumption.
      fold h'. rewrite (adapt_AP_eq n) by assumption; cbv zeta.
      pose proof Hwf as (Hw & Hn & Hx); unfold is_AP in Hap; unfold ap_next.
      destruct (o_ext o) as [| | | | | | | | | | | | | | | order xm dm ii id ym em] eqn:E;
        try discriminate; simpl in Hx; destruct Hx as (Ho & Hlx & Hr & Hld).
      unfold bind at 1; rewrite (ap_push_x_eq (set_hist h' o) order xm dm ii id ym em x)
        by (simpl; auto; congruence).
      unfold bind at 1; erewrite ap_push_d_eq by (simpl; eauto).
      unfold bind at 1; erewrite (ap_estimate_eq n); [|reflexivity| |].
      2:{ apply push_x_length; auto. } 2:{ exact Hw. }
      unfold bind, get, lift, ret; cbn [set_ext set_hist o_ext o_w o_mu o_n o_hist].
      destruct (ap_learning_rule_res (o_mu o) order ii id
         (map2 nsub (push_d order dm d) (mv (transpose order (push_x order xm x)) (o_w o)))
         (push_x order xm x)) as [(dw & -> & Hdw) | ->]; [|reflexivity].
      rewrite (iadd_w_ok n); [|exact Hw|rewrite Hdw; apply push_x_length; auto].
      cbn [fst snd rmap]. f_equal. f_equal.
      assert (Hy : nth 0 (mv (transpose order (push_x order xm x)) (o_w o)) n0 = ndot x (o_w o)).
      { unfold mv. pose proof (transpose_push_0 order xm x Ho) as Ht.
        destruct (transpose order (push_x order xm x)) as [|r t] eqn:Et.
        - apply (f_equal (@length _)) in Et; rewrite transpose_length in Et; simpl in Et; lia.
        - simpl in Ht |- *. rewrite Ht by congruence; reflexivity. }
      rewrite Hy; f_equal.
      unfold push_d; destruct (mv _ _) as [|y0 ys] eqn:Ey.
      + apply (f_equal (@length _)) in Ey; rewrite mv_length, transpose_length in Ey; simpl in Ey; lia.
      + simpl in Hy |- *; congruence.
    - unfold run_body_base, adapt_base.
      unfold bind at 1; rewrite (hist_set_ok n) with (h := h) by assumption; fold h'.
      destruct (predict_ok _ _ _ Hwf Hl) as (o1 & y & Hp & Hwf1 & Hw1 & Hh1 & Hf1).
      unfold bind at 1; rewrite blind_predict, Hp; cbn [fst snd].
      unfold bind at 1; rewrite blind_learning_rule.
      unfold bind at 2 4; rewrite Hp.
      unfold bind at 2 3.
      destruct (learning_rule (nsub d y) x o1) as [o2 [dw|ex]]; cbn [fst snd]; [|reflexivity].
      unfold bind; rewrite blind_iadd_w.
      destruct (iadd_w dw o2) as [o3 [[]|ex]]; cbn [fst snd]; reflexivity.
  Qed.

  Lemma set_nth_app {A} (v : A) l1 a l2 : set_nth (length l1) v (l1 ++ a :: l2) = l1 ++ v :: l2.
  Proof. induction l1; simpl; congruence. Qed.

  (** the loop of run, when the history array is [done ++ rest] with k = length done *)
  Lemma run_loop_ok n ds : forall xs k o done rest,
    wf n o -> rowsl n xs -> length ds = length xs -> length rest = length xs ->
    o_hist o = Some (done ++ rest) -> length done = k ->
    exists h',
      run_loop k ds xs o =
        (set_hist h' (fst (adapt_all ds xs o)),
         rmap (fun _ => (ytrace ds xs o, map2 nsub ds (ytrace ds xs o))) (snd (adapt_all ds xs o))) /\
      (snd (adapt_all ds xs o) = Ok tt -> h' = done ++ wtrace ds xs o).
  Proof.
    induction ds as [|d ds IH]; intros [|x xs] k o done rest Hwf Hr Hl Hlr Hh Hk;
      simpl in Hl; try discriminate.
    - exists (done ++ rest); split.
      + simpl; unfold ret; simpl. destruct o; simpl in *; subst; reflexivity.
      + intros _; simpl. destruct rest; [reflexivity|discriminate].
    - destruct rest as [|r0 rest]; simpl in Hlr; [discriminate|].
      inversion Hr as [|? ? Hx Hr']; subst.
      cbn [run_loop adapt_all ytrace wtrace].
      unfold bind at 1; erewrite run_body_ok by eauto.
      rewrite set_nth_app.
      destruct (adapt_ok _ o d x Hwf eq_refl) as (o1 & r1 & E1 & Hwf1 & Hh1 & Hf1 & Hr1).
      unfold bind at 2 3 4; rewrite E1; cbn [fst snd rmap].
      destruct Hr1 as [-> | (ex & -> & Hs & _)]; cbn [rmap].
      + set (h1 := done ++ o_w o :: rest).
        destruct (IH xs (S (length done)) (set_hist h1 o1) (done ++ [o_w o]) rest) as (h' & Hrun & Hh').
        { apply wf_set_hist; exact Hwf1. } { auto. } { lia. } { lia. }
        { simpl; unfold h1; rewrite <- app_assoc; reflexivity. }
        { rewrite app_length; simpl; lia. }
        exists h'; split.
        * unfold bind at 1. rewrite Hrun, ytrace_hist.
          pose proof (blind_adapt_all ds xs o1 h1) as Hb; rewrite Hb; cbn [fst snd].
          destruct (adapt_all ds xs o1) as [o2 [[]|ex]]; reflexivity.
        * rewrite blind_adapt_all, wtrace_hist in Hh'; simpl in Hh'.
          intros H; rewrite Hh', <- app_assoc; auto.
      + eexists; split; [reflexivity|]. discriminate.
  Qed.

  Theorem run_eq n o d x : wf n o -> rowsl n x -> length d = length x -> x <> [] ->
    exists h,
      run d x o =
        (set_hist h (fst (adapt_all d x o)),
         rmap (fun _ => (ytrace d x o, map2 nsub d (ytrace d x o), wtrace d x o))
              (snd (adapt_all d x o))) /\
      (snd (adapt_all d x o) = Ok tt -> h = wtrace d x o).
  Proof.
    intros Hwf Hr Hl Hx; unfold run.
    rewrite Hl, Nat.eqb_refl; cbn [negb].
    destruct x as [|x0 x']; [congruence|].
    assert (Hlx0 : length x0 = n) by (inversion Hr; auto).
    rewrite Hlx0. apply rect_Forall in Hr as Hr'; rewrite Hr'; cbn [negb].
    rewrite bind_modify.
    assert (Hsn : set_n n o = o).
    { destruct Hwf as (_ & Hn & _); destruct o; simpl in *; subst; reflexivity. }
    rewrite Hsn, bind_modify.
    set (X := x0 :: x') in *.
    destruct (run_loop_ok n d X 0 (set_hist (zeros2 (length X) n) o) [] (zeros2 (length X) n))
      as (h' & Hrun & Hh'); auto.
    { apply zeros2_length. }
    exists h'.
    rewrite blind_adapt_all, ytrace_hist, wtrace_hist in *; cbn [fst snd] in *.
    split; [|auto].
    unfold bind at 1; rewrite Hrun.
    destruct (adapt_all d X o) as [o2 [[]|ex]]; cbn [fst snd rmap]; [|reflexivity].
    unfold bind, get, ret; cbn [o_hist set_hist].
    cbn [fst snd] in Hh'. rewrite Hh' by reflexivity. reflexivity.
  Qed.

  (** ** traces *)
  Lemma ytrace_length ds xs o : length ds = length xs -> length (ytrace ds xs o) = length xs.
  Proof.
    revert xs o; induction ds as [|d ds IH]; intros [|x xs] o Hl; simpl in *; try discriminate; auto.
  Qed.
  Lemma wtrace_length ds xs o : length ds = length xs -> length (wtrace ds xs o) = length xs.
  Proof.
    revert xs o; induction ds as [|d ds IH]; intros [|x xs] o Hl; simpl in *; try discriminate; auto.
  Qed.

  (** with no exception on the way *)
  Lemma adapt_all_Ok_cons d ds x xs (o : obj) :
    snd (adapt_all (d :: ds) (x :: xs) o) = Ok tt ->
    snd (adapt d x o) = Ok tt /\ snd (adapt_all ds xs (fst (adapt d x o))) = Ok tt /\
    fst (adapt_all (d :: ds) (x :: xs) o) = fst (adapt_all ds xs (fst (adapt d x o))).
  Proof.
    simpl; unfold bind; destruct (adapt d x o) as [o1 [[]|ex]]; simpl; auto; discriminate.
  Qed.

  Lemma ytrace_nth ds : forall xs o k, length ds = length xs -> k < length xs ->
    snd (adapt_all ds xs o) = Ok tt ->
    nth k (ytrace ds xs o) n0 = pred_out (state_after k ds xs o) (nth k xs []).
  Proof.
    induction ds as [|d ds IH]; intros [|x xs] o k Hl Hk HO; simpl in Hl, Hk; try lia.
    apply adapt_all_Ok_cons in HO as (H1 & H2 & _).
    destruct k as [|k]; [reflexivity|].
    cbn [ytrace nth]; rewrite IH by (auto; lia).
    unfold state_after; simpl; unfold bind.
    destruct (adapt d x o) as [o1 [[]|ex]]; simpl in *; [reflexivity|discriminate].
  Qed.
  Lemma wtrace_nth ds : forall xs o k, length ds = length xs -> k < length xs ->
    snd (adapt_all ds xs o) = Ok tt ->
    nth k (wtrace ds xs o) [] = o_w (state_after k ds xs o).
  Proof.
    induction ds as [|d ds IH]; intros [|x xs] o k Hl Hk HO; simpl in Hl, Hk; try lia.
    apply adapt_all_Ok_cons in HO as (H1 & H2 & _).
    destruct k as [|k]; [reflexivity|].
    cbn [wtrace nth]; rewrite IH by (auto; lia).
    unfold state_after; simpl; unfold bind.
    destruct (adapt d x o) as [o1 [[]|ex]]; simpl in *; [reflexivity|discriminate].
  Qed.

  Lemma wtrace_rows n ds xs o : wf n o -> rowsl n xs -> rowsl n (wtrace ds xs o).
  Proof.
    intros Hwf Hr; revert o ds Hwf; induction Hr as [|x xs Hx Hr IH]; intros o [|d ds] Hwf; simpl;
      constructor.
    - apply Hwf.
    - apply IH. destruct (adapt_ok _ o d x Hwf Hx) as (o1 & r1 & E1 & Hwf1 & _).
      rewrite E1; exact Hwf1.
  Qed.

  Lemma trace_app ds1 xs1 ds2 xs2 o : length ds1 = length xs1 ->
    snd (adapt_all ds1 xs1 o) = Ok tt ->
    ytrace (ds1 ++ ds2) (xs1 ++ xs2) o =
      ytrace ds1 xs1 o ++ ytrace ds2 xs2 (fst (adapt_all ds1 xs1 o)) /\
    wtrace (ds1 ++ ds2) (xs1 ++ xs2) o =
      wtrace ds1 xs1 o ++ wtrace ds2 xs2 (fst (adapt_all ds1 xs1 o)).
  Proof.
    revert xs1 o; induction ds1 as [|d ds1 IH]; intros [|x xs1] o Hl HO; simpl in Hl; try discriminate.
    - split; reflexivity.
    - apply adapt_all_Ok_cons in HO as (H1 & H2 & H3).
      rewrite H3. cbn [app ytrace wtrace].
      destruct (IH xs1 (fst (adapt d x o))) as (-> & ->); auto.
  Qed.

  (** causality: only the targets before k and the inputs up to k matter *)
  Lemma trace_causal ds : forall ds' xs xs' o k,
    length ds = length xs -> length ds' = length xs' -> k < length xs -> k < length xs' ->
    firstn k ds = firstn k ds' -> firstn (S k) xs = firstn (S k) xs' ->
    firstn (S k) (ytrace ds xs o) = firstn (S k) (ytrace ds' xs' o) /\
    firstn (S k) (wtrace ds xs o) = firstn (S k) (wtrace ds' xs' o).
  Proof.
    induction ds as [|d ds IH]; intros [|d' ds'] [|x xs] [|x' xs'] o k L1 L2 K1 K2 Hd Hx;
      simpl in L1, L2, K1, K2; try lia.
    injection Hx as -> Hx.
    cbn [ytrace wtrace]. destruct k as [|k].
    - split; reflexivity.
    - injection Hd as -> Hd.
      rewrite (firstn_cons (S k) (pred_out o x')), (firstn_cons (S k) (o_w o)).
      rewrite (firstn_cons (S k) (pred_out o x')), (firstn_cons (S k) (o_w o)).
      destruct (IH ds' xs xs' (fst (adapt d' x' o)) k) as (-> & ->); auto; lia.
  Qed.
End S.
