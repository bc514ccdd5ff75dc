(** Properties C01-C09: run, adapt, predict and pretrained_run of every filter class, for every
    arithmetic ([Num T] without laws).  Vocabulary: Spec.v. *)
From Coq Require Import QArith.
From Verif Require Import Py Num NumQ Numpy Filters Registry Spec StructProofs RunProofs Reach KeepProofs.
Open Scope nat_scope.

Lemma map2_app {A B C} (f : A -> B -> C) a1 a2 b1 b2 : length a1 = length b1 ->
  map2 f (a1 ++ a2) (b1 ++ b2) = map2 f a1 b1 ++ map2 f a2 b2.
Proof.
  revert b1; induction a1 as [|a a1 IH]; intros [|b b1] Hl; simpl in *; try discriminate; auto.
  f_equal; auto.
Qed.

Section Props.
  Context {T : Type} {NT : Num T}.
  Notation vec := (list T).
  Notation mat := (list (list T)).
  Notation obj := (obj T).

  (** *** C01 *)
  Theorem C01_run_is_adapt_loop : forall (n : nat) (o : obj) (d : vec) (x : mat),
    reachable n o -> rows_of n x -> length d = length x -> x <> [] ->
    same_filter (fst (run d x o)) (fst (adapt_all d x o)) /\
    same_outcome (snd (run d x o)) (snd (adapt_all d x o)).
  Proof.
    intros n o d x Hr Hx Hl Hne; apply reachable_wf in Hr.
    destruct (run_eq n o d x Hr Hx Hl Hne) as (h & -> & _); simpl.
    split; [repeat split|]. destruct (snd (adapt_all d x o)); simpl; auto.
  Qed.

  (** *** C02 *)
  Theorem C02_run_arrays : forall (n : nat) (o o' : obj) (d : vec) (x : mat) (y e : vec) (w : mat),
    reachable n o -> rows_of n x -> length d = length x ->
    run d x o = (o', Ok (y, e, w)) ->
    o_hist o' = Some w /\ o_w o' = o_w (state_after (length x) d x o) /\
    forall k, k < length x ->
      nth k w [] = o_w (state_after k d x o) /\
      (dot_commutes \/ is_AP o = false ->
         snd (predict (nth k x []) (state_after k d x o)) = Ok (nth k y n0)) /\
      nth k e n0 = nsub (nth k d n0) (nth k y n0).
  Proof.
    intros n o o' d x y e w Hr Hx Hl E; apply reachable_wf in Hr.
    destruct x as [|x0 xs]; [destruct d; discriminate|].
    destruct (run_eq n o d (x0 :: xs) Hr Hx Hl) as (h & E' & Hh); [discriminate|].
    rewrite E in E'.
    destruct (snd (adapt_all d (x0 :: xs) o)) as [[]|] eqn:HO; [|discriminate].
    specialize (Hh eq_refl); simpl in E'. injection E' as -> -> -> ->. subst h.
    split; [reflexivity|]. split.
    { unfold state_after; rewrite !firstn_all2 by (rewrite ?Hl; auto). reflexivity. }
    intros k Hk. rewrite wtrace_nth by auto. split; [reflexivity|]. split.
    - intros Hc. rewrite ytrace_nth by auto.
      set (s := state_after k d (x0 :: xs) o).
      assert (Hs : wf n s /\ frame o s).
      { unfold s, state_after.
        destruct (adapt_all_ok n (firstn k d) (firstn k (x0 :: xs)) o Hr) as (s' & r & -> & H1 & _ & H2 & _).
        - apply firstn_rows; auto.
        - split; assumption. }
      destruct Hs as (Hs & Hf).
      assert (Hlk : length (nth k (x0 :: xs) []) = n).
      { apply nth_rows; auto. }
      destruct (predict_ok n s _ Hs Hlk) as (s' & yk & Hp & _).
      unfold pred_out; rewrite Hp; simpl.
      destruct (is_AP s) eqn:Hap; [|reflexivity].
      rewrite predict_plain in Hp by (unfold is_AP, is_OCNLMS in *; destruct (o_ext s); auto; discriminate).
      assert (Hv : vdot (o_w s) (nth k (x0 :: xs) []) = Ok yk) by congruence.
      rewrite vdot_ok in Hv by (rewrite Hlk; apply Hs). injection Hv as Hv.
      destruct Hc as [Hc|Hc]; [rewrite <- Hv, Hc; reflexivity|].
      exfalso; destruct Hf as (_ & _ & Hk'); unfold is_AP in *.
      destruct (o_ext o), (o_ext s); discriminate.
    - assert (Hly : length (ytrace d (x0 :: xs) o) = length d) by (rewrite ytrace_length; auto).
      revert Hk; rewrite <- Hl. generalize (ytrace d (x0 :: xs) o) Hly. clear.
      revert k; induction d as [|a d IH]; intros [|k] [|b y] Hly Hk; simpl in *; try lia; auto.
      apply IH; lia.
  Qed.

  Corollary C02_first_row : forall (n : nat) (o o' : obj) (d : vec) (x : mat) (y e : vec) (w : mat),
    reachable n o -> rows_of n x -> length d = length x ->
    run d x o = (o', Ok (y, e, w)) -> nth 0 w [] = o_w o.
  Proof.
    intros n o o' d x y e w Hr Hx Hl E.
    destruct x as [|x0 xs]; [destruct d; discriminate|].
    destruct (C02_run_arrays _ _ _ _ _ _ _ _ Hr Hx Hl E) as (_ & _ & H).
    apply (H 0). simpl; lia.
  Qed.

  (** *** C03 *)
  Theorem C03_chunked : forall (n : nat) (o : obj) (d1 d2 : vec) (x1 x2 : mat),
    reachable n o -> rows_of n x1 -> rows_of n x2 ->
    length d1 = length x1 -> length d2 = length x2 -> x1 <> [] -> x2 <> [] ->
    let two_runs :=
      bind (run d1 x1) (fun '(y1, e1, w1) =>
      bind (run d2 x2) (fun '(y2, e2, w2) => ret (y1 ++ y2, e1 ++ e2, w1 ++ w2))) in
    same_filter (fst (run (d1 ++ d2) (x1 ++ x2) o)) (fst (two_runs o)) /\
    snd (run (d1 ++ d2) (x1 ++ x2) o) = snd (two_runs o).
  Proof.
    intros n o d1 d2 x1 x2 Hr Hx1 Hx2 Hl1 Hl2 Hn1 Hn2; apply reachable_wf in Hr; cbv zeta.
    destruct (run_eq n o (d1 ++ d2) (x1 ++ x2)) as (h & -> & _); auto.
    { apply Forall_app; split; auto. } { rewrite !app_length; lia. } { destruct x1; [congruence|discriminate]. }
    match goal with |- context [bind (run d1 x1) ?k o] =>
      destruct (bind (run d1 x1) k o) as [oB rB] eqn:HB end.
    cbn [fst snd]. unfold bind in HB.
    destruct (run_eq n o d1 x1 Hr Hx1 Hl1 Hn1) as (h1 & E & _); rewrite E in HB; clear E.
    rewrite adapt_all_app by assumption. unfold bind.
    destruct (adapt_all_ok n d1 x1 o Hr Hx1) as (o1 & r1 & E1 & Hwf1 & _ & _ & Hr1).
    pose proof (trace_app d1 x1 d2 x2 o Hl1) as Htr.
    rewrite E1 in *; cbn [fst snd] in *.
    destruct Hr1 as [-> | (ex & -> & _)]; cbn [rmap] in *.
    - destruct (Htr eq_refl) as (Hy & Hw); rewrite Hy, Hw.
      destruct (run_eq n (set_hist h1 o1) d2 x2) as (h2 & E & _); auto.
      rewrite E in HB; clear E.
      pose proof (blind_adapt_all d2 x2 o1 h1) as Hb; rewrite Hb, ytrace_hist, wtrace_hist in HB.
      cbn [fst snd] in HB.
      destruct (adapt_all d2 x2 o1) as [o2 [[]|ex]]; cbn [fst snd rmap] in *; unfold ret in HB;
        injection HB as <- <-.
      + split; [repeat split|].
        rewrite map2_app by (rewrite ytrace_length; auto). reflexivity.
      + split; [repeat split|reflexivity].
    - injection HB as <- <-. split; [repeat split|reflexivity].
  Qed.

  (** *** C04 *)
  Theorem C04_causality : forall (n : nat) (o o1 o2 : obj) (d d' : vec) (x x' : mat) (k : nat) y e w y' e' w',
    reachable n o -> rows_of n x -> rows_of n x' ->
    run d x o = (o1, Ok (y, e, w)) -> run d' x' o = (o2, Ok (y', e', w')) ->
    k < length x -> k < length x' ->
    firstn k d = firstn k d' -> firstn (S k) x = firstn (S k) x' ->
    firstn (S k) y = firstn (S k) y' /\ firstn (S k) w = firstn (S k) w' /\ firstn k e = firstn k e' /\
    (firstn (S k) d = firstn (S k) d' -> firstn (S k) e = firstn (S k) e').
  Proof.
    intros n o o1 o2 d d' x x' k y e w y' e' w' Hr Hx Hx' E1 E2 K1 K2 Hd Hxx.
    apply reachable_wf in Hr.
    assert (L1 : length d = length x).
    { destruct (Nat.eq_dec (length d) (length x)) as [|Hc]; auto.
      rewrite run_bad_length in E1 by assumption; discriminate. }
    assert (L2 : length d' = length x').
    { destruct (Nat.eq_dec (length d') (length x')) as [|Hc]; auto.
      rewrite run_bad_length in E2 by assumption; discriminate. }
    destruct (run_eq n o d x) as (h & E1' & _); auto; [destruct x; simpl in *; [lia|discriminate]|].
    destruct (run_eq n o d' x') as (h' & E2' & _); auto; [destruct x'; simpl in *; [lia|discriminate]|].
    rewrite E1 in E1'; rewrite E2 in E2'.
    destruct (snd (adapt_all d x o)); [|discriminate].
    destruct (snd (adapt_all d' x' o)); [|discriminate].
    simpl in E1', E2'. injection E1' as -> -> -> ->. injection E2' as -> -> -> ->.
    destruct (trace_causal d d' x x' o k L1 L2 K1 K2 Hd Hxx) as (Hy & Hw).
    split; [exact Hy|]. split; [exact Hw|].
    assert (Hf : forall j (u v : vec), firstn j (map2 nsub u v) = map2 nsub (firstn j u) (firstn j v)).
    { clear; induction j as [|j IH]; intros [|a u] [|b v]; simpl; auto; f_equal; auto. }
    rewrite !Hf. split.
    - f_equal; auto. apply (f_equal (firstn k)) in Hy.
      rewrite !firstn_firstn, Nat.min_l in Hy by lia; exact Hy.
    - intros Hd'; f_equal; auto.
  Qed.

  (** *** C05 *)
  Theorem C05_realtime_loop : forall (n : nat) (o : obj) (d : vec) (x : mat),
    reachable n o -> rows_of n x -> length d = length x -> x <> [] ->
    is_OCNLMS o = false -> (dot_commutes \/ is_AP o = false) ->
    same_filter (fst (online_loop d x o)) (fst (run d x o)) /\
    snd (online_loop d x o) = rmap (fun '(y, e, w) => y) (snd (run d x o)).
  Proof.
    intros n o d x Hr Hx Hl Hne Ho Hc; apply reachable_wf in Hr.
    destruct (run_eq n o d x Hr Hx Hl Hne) as (h & -> & _).
    assert (H : online_loop d x o = (fst (adapt_all d x o), rmap (fun _ => ytrace d x o) (snd (adapt_all d x o)))).
    { clear h Hne. revert d o Hr Hl Ho Hc; induction Hx as [|x0 x Hx0 Hx IH]; intros [|d0 d] o Hr Hl Ho Hc;
        simpl in Hl; try discriminate; [reflexivity|].
      cbn [online_loop adapt_all ytrace].
      unfold bind at 1; rewrite predict_plain by assumption.
      rewrite vdot_ok by (destruct Hr; congruence).
      unfold bind.
      destruct (adapt_ok n o d0 x0 Hr Hx0) as (o1 & r1 & E1 & Hwf1 & _ & Hf1 & Hr1).
      rewrite E1; cbn [fst snd].
      destruct Hr1 as [-> | (ex & -> & _)]; [|reflexivity].
      rewrite IH; auto.
      - assert (Hp : pred_out o x0 = ndot (o_w o) x0).
        { unfold pred_out. destruct (is_AP o) eqn:Hap.
          - destruct Hc as [Hc|Hc]; [apply Hc|discriminate].
          - rewrite predict_plain by assumption. rewrite vdot_ok by (destruct Hr; congruence). reflexivity. }
        destruct (adapt_all d x o1) as [o2 [[]|ex]]; simpl; [|reflexivity].
        rewrite Hp; reflexivity.
      - destruct Hf1 as (_ & _ & Hk); unfold is_OCNLMS in *; destruct (o_ext o), (o_ext o1); auto; discriminate.
      - destruct Hc as [Hc|Hc]; auto. right.
        destruct Hf1 as (_ & _ & Hk); unfold is_AP in *; destruct (o_ext o), (o_ext o1); auto; discriminate. }
    rewrite H; cbn [fst snd]. split; [repeat split|].
    destruct (snd (adapt_all d x o)); reflexivity.
  Qed.

  (** *** C06 *)
  Theorem C06_predict_pure : forall (o : obj) (x : vec),
    is_OCNLMS o = false -> fst (predict x o) = o.
  Proof. intros o x Ho; rewrite predict_plain by assumption; reflexivity. Qed.

  (** dropping the predict calls from a script changes neither the filter nor the other outcomes
      (any arguments, also malformed ones) *)
  Theorem C06_predict_insertion : forall (ps : list op) (o : obj), is_OCNLMS o = false ->
    exec_all ps o = exec_all (filter (fun p => negb (is_predict p)) ps) o /\
    map snd (filter (fun q => negb (is_predict (fst q))) (combine ps (outcomes ps o))) =
    outcomes (filter (fun p => negb (is_predict p)) ps) o.
  Proof.
    induction ps as [|p ps IH]; intros o Ho; [split; reflexivity|].
    destruct (IH (exec p o)) as (H1 & H2); [rewrite exec_OCNLMS; exact Ho|].
    cbn [filter outcomes combine fst].
    destruct (is_predict p) eqn:Hp; cbn [negb].
    - destruct p as [x| | |]; try discriminate.
      unfold exec in *. rewrite C06_predict_pure in * by assumption.
      split; [|exact H2]. unfold exec_all at 1; cbn [fold_left]. unfold exec at 2.
      rewrite C06_predict_pure by assumption. exact H1.
    - cbn [map snd outcomes]. split.
      + exact H1.
      + f_equal. exact H2.
  Qed.

  (** *** C07 *)
  Theorem C07_sizes : forall (n : nat) (o : obj), reachable n o -> length (o_w o) = n /\ o_n o = n.
  Proof. intros n o Hr; apply reachable_wf in Hr; split; apply Hr. Qed.

  Theorem C07_predict_total : forall (n : nat) (o : obj) (x : vec), reachable n o -> length x = n ->
    exists y, snd (predict x o) = Ok y.
  Proof.
    intros n o x Hr Hx; apply reachable_wf in Hr.
    destruct (predict_ok n o x Hr Hx) as (o' & y & -> & _); exists y; reflexivity.
  Qed.

  Theorem C07_adapt_total : forall (n : nat) (o : obj) (d : T) (x : vec), reachable n o -> length x = n ->
    snd (adapt d x o) = Ok tt \/
    (exists ex, snd (adapt d x o) = Err ex /\ soft_exn o ex /\ o_w (fst (adapt d x o)) = o_w o).
  Proof.
    intros n o d x Hr Hx; apply reachable_wf in Hr.
    destruct (adapt_ok n o d x Hr Hx) as (o' & r & -> & _ & _ & _ & [-> | (ex & -> & Hs & Hw)]); auto.
    right; exists ex; auto.
  Qed.

  Theorem C07_run_total : forall (n : nat) (o : obj) (d : vec) (x : mat), reachable n o -> rows_of n x ->
    length d = length x -> x <> [] ->
    (exists y e w, snd (run d x o) = Ok (y, e, w) /\
        length y = length x /\ length e = length x /\ length w = length x /\ rows_of n w) \/
    (exists ex, snd (run d x o) = Err ex /\ soft_exn o ex).
  Proof.
    intros n o d x Hr Hx Hl Hne; apply reachable_wf in Hr.
    destruct (run_eq n o d x Hr Hx Hl Hne) as (h & -> & _).
    destruct (adapt_all_ok n d x o Hr Hx) as (o' & r & -> & _ & _ & _ & [-> | (ex & -> & Hs)]); cbn [fst snd rmap].
    - left; do 3 eexists; split; [reflexivity|].
      pose proof (ytrace_length d x o Hl) as Hy.
      repeat split; auto using ytrace_length, wtrace_length.
      + rewrite map2_length; lia.
      + apply wtrace_rows; auto.
    - right; eauto.
  Qed.

  Lemma predict_bad n (o : obj) eps mem em mx md idx x :
    o_ext o = XOCNLMS eps mem em mx md idx -> wf_ext n (o_ext o) ->
    length (o_w o) = n -> length x <> n -> length x <> 1 ->
    exists o', predict x o = (o', Err ValueError) /\ o_w o' = o_w o /\ o_n o' = o_n o.
  Proof.
    intros E Hx Hw Hxn Hx1; rewrite E in Hx; simpl in Hx; destruct Hx as (Hm & Hlm & Hrm & Hlmd & Hidx).
    assert (Hrd : exists m_d m_x em' idx',
      read_memory o = (set_ext (XOCNLMS eps mem em' mx md idx') o, Ok (m_d, m_x))).
    { unfold read_memory, bind, get, ret, modify, raise; rewrite E.
      destruct em.
      - destruct (idx =? 0); destruct (length mx - 1 <? idx + 1); do 4 eexists; reflexivity.
      - replace (idx <? length md) with true by (symmetry; apply Nat.ltb_lt; lia).
        destruct (length mx - 1 <? idx + 1); do 4 eexists; reflexivity. }
    destruct Hrd as (m_d & m_x & em' & idx' & Hrd).
    unfold predict; unfold bind at 1, get at 1; rewrite E.
    unfold bind at 1; rewrite Hrd. unfold bind at 1, lift at 1.
    assert (Hb : bc_sub x m_x = Err ValueError \/
                 exists dx, bc_sub x m_x = Ok dx /\ length dx = length x).
    { unfold bc_sub, bc. destruct (Nat.eqb_spec (length x) (length m_x)) as [He|He].
      - right; eexists; split; [reflexivity|]. rewrite map2_length; lia.
      - destruct x as [|a [|b x']]; simpl in *; try lia; destruct m_x as [|c [|c' mx']]; simpl in *; auto;
          try (right; eexists; split; [reflexivity|]; simpl; rewrite ?map_length; reflexivity). }
    destruct Hb as [-> | (dx & -> & Hdx)].
    - eexists; split; [reflexivity|]; split; reflexivity.
    - unfold bind, get, lift, vdot; cbn [set_ext o_w].
      replace (length (o_w o) =? length dx) with false by (symmetry; apply Nat.eqb_neq; lia).
      eexists; split; [reflexivity|]; split; reflexivity.
  Qed.

  (** *** C08 *)
  Theorem C08_length_mismatch : forall (o : obj) (d : vec) (x : mat),
    length d <> length x -> run d x o = (o, Err ValueError).
  Proof. intros o d x; apply run_bad_length. Qed.

  Theorem C08_empty : forall o : obj, run [] [] o = (o, Err IndexError).
  Proof. intros; reflexivity. Qed.

  Theorem C08_wrong_width : forall (n m : nat) (o : obj) (d : vec) (x : mat),
    reachable n o -> rows_of m x -> m <> n -> length d = length x -> x <> [] ->
    snd (run d x o) = Err ValueError /\ o_w (fst (run d x o)) = o_w o /\ o_n (fst (run d x o)) = m.
  Proof.
    intros n m o d x Hr Hx Hmn Hl Hne; apply reachable_wf in Hr.
    unfold run; rewrite Hl, Nat.eqb_refl; cbn [negb].
    destruct x as [|x0 xs]; [congruence|].
    destruct d as [|d0 ds]; [discriminate|].
    assert (H0 : length x0 = m) by (inversion Hx; auto).
    rewrite H0. apply rect_Forall in Hx as ->; cbn [negb].
    rewrite bind_modify, bind_modify. cbn [run_loop].
    set (o1 := set_hist (zeros2 (length (x0 :: xs)) m) (set_n m o)).
    assert (Hb : exists o2, run_body 0 d0 x0 o1 = (o2, Err ValueError) /\ o_w o2 = o_w o /\ o_n o2 = m).
    { destruct Hr as (Hw & Hn & Hxx).
      assert (Hset : forall (k : unit -> M obj (T * T)),
        (n = 1 /\ exists o2, o_w o2 = o_w o /\ o_n o2 = m /\ o_ext o2 = o_ext o /\ bind (hist_set 0) k o1 = k tt o2) \/
        bind (hist_set 0) k o1 = (o1, Err ValueError)).
      { intros k; unfold hist_set, bind, get, o1; cbn [o_hist set_hist o_w o_n set_n].
        rewrite Hw. destruct (n =? m) eqn:En; [apply Nat.eqb_eq in En; congruence|].
        destruct (o_w o) as [|a [|b w']] eqn:Ew; [right; reflexivity| |right; reflexivity].
        left. split; [simpl in Hw; lia|]. unfold ret, modify.
        eexists. split; [|split; [|split; [|reflexivity]]]; simpl; auto. }
      unfold run_body; unfold bind at 1, get at 1.
      change (is_AP o1) with (is_AP o).
      destruct (is_AP o) eqn:Hap; [unfold run_body_AP | unfold run_body_base].
      all: match goal with |- exists _, bind (hist_set 0) ?k _ = _ /\ _ =>
             destruct (Hset k) as [(Hn1 & o2 & Hw2 & Hn2 & Hx2 & ->) | ->] end;
           [ | eexists; split; [reflexivity|]; repeat split].
      - (* AP *)
        unfold is_AP in Hap.
        destruct (o_ext o) as [| | | | | | | | | | | | | | | order xm dm ii id ym em] eqn:E;
          try discriminate; simpl in Hxx; destruct Hxx as (Ho & Hlx & Hrr & Hld).
        (* hist_set passed only because n = 1 *)
        unfold bind at 1; unfold ap_push_x; unfold bind at 1, get at 1; rewrite Hx2.
        unfold bind at 1, modify at 1.
        replace (order =? 0) with false by (symmetry; apply Nat.eqb_neq; lia).
        rewrite Hlx. replace (length x0 =? n) with false by (symmetry; apply Nat.eqb_neq; congruence).
        destruct x0 as [|a [|b x1]].
        + eexists; split; [reflexivity|]; split; auto.
        + simpl in H0; congruence.
        + eexists; split; [reflexivity|]; split; auto.
      - (* base classes: np.dot rejects *)
        unfold bind at 1.
        destruct (is_OCNLMS o) eqn:Hoc.
        + unfold is_OCNLMS in Hoc.
          destruct (o_ext o) as [| | | | | | | | | | | eps mem em mx md idx | | | |] eqn:E;
            try discriminate.
          destruct (predict_bad n o2 eps mem em mx md idx x0) as (o3 & -> & Hw3 & Hn3); auto; try congruence.
          exists o3; repeat split; congruence.
        + rewrite predict_plain by (unfold is_OCNLMS in *; rewrite Hx2; exact Hoc).
          unfold vdot. replace (length (o_w o2) =? length x0) with false
            by (symmetry; apply Nat.eqb_neq; congruence).
          exists o2; repeat split; auto. }
    destruct Hb as (o2 & Hb & Hw2 & Hn2).
    unfold bind; rewrite Hb. cbn [fst snd]. auto.
  Qed.
  (** rows of different lengths: rejected too, but the filter size attribute is overwritten *)
  Theorem C08_ragged : forall (o : obj) (d : vec) (x0 : vec) (xs : mat),
    length d = S (length xs) -> ~ rows_of (length x0) (x0 :: xs) ->
    run d (x0 :: xs) o = (set_n (length x0) o, Err ValueError).
  Proof.
    intros o d x0 xs Hl Hx; unfold run.
    replace (length d =? length (x0 :: xs)) with true by (symmetry; apply Nat.eqb_eq; exact Hl).
    cbn [negb]. rewrite bind_modify.
    destruct (rect (length x0) (x0 :: xs)) eqn:E; [|reflexivity].
    exfalso; apply Hx; apply rect_Forall; exact E.
  Qed.

  (** adapt with a vector of the wrong length.  AP and OCNLMS silently accept a vector of length 1
      (see the _refuted examples below). *)
  Theorem C08_adapt_wrong_width : forall (n : nat) (o : obj) (d : T) (x : vec),
    reachable n o -> length x <> n ->
    length x <> 1 \/ (is_AP o = false /\ is_OCNLMS o = false) ->
    snd (adapt d x o) = Err ValueError /\ o_w (fst (adapt d x o)) = o_w o.
  Proof.
    intros n o d x Hr Hx H1; apply reachable_wf in Hr; destruct Hr as (Hw & Hn & Hxx).
    unfold adapt; unfold bind, get.
    destruct (is_AP o) eqn:Hap.
    - destruct H1 as [H1|[H1 _]]; [|discriminate].
      unfold is_AP in Hap.
      destruct (o_ext o) as [| | | | | | | | | | | | | | | order xm dm ii id ym em] eqn:E;
        try discriminate; simpl in Hxx; destruct Hxx as (Ho & Hlx & Hrr & Hld).
      unfold adapt_AP, ap_push_x, bind, get, modify, ret, raise; rewrite E.
      replace (order =? 0) with false by (symmetry; apply Nat.eqb_neq; lia).
      rewrite Hlx. replace (length x =? n) with false by (symmetry; apply Nat.eqb_neq; congruence).
      destruct x as [|a [|b x']]; simpl in H1; try lia; split; reflexivity.
    - unfold adapt_base, bind.
      destruct (is_OCNLMS o) eqn:Hoc.
      + destruct H1 as [H1|[_ H1]]; [|discriminate].
        unfold is_OCNLMS in Hoc.
        destruct (o_ext o) as [| | | | | | | | | | | eps mem em mx md idx | | | |] eqn:E;
          try discriminate.
        destruct (predict_bad n o eps mem em mx md idx x) as (o' & -> & Hw' & _); auto.
        rewrite E; exact Hxx.
      + rewrite predict_plain by assumption. unfold vdot.
        replace (length (o_w o) =? length x) with false by (symmetry; apply Nat.eqb_neq; congruence).
        split; reflexivity.
  Qed.

  (** [z] read as the position of a slice bound in a list of [len] elements (Python): a negative one
      counts from the end, both are cut off at the ends of the list *)
  Definition slice_position (len : nat) (z : Z) (k : nat) : Prop :=
    Z.of_nat k = if (z <? 0)%Z then Z.max 0 (Z.of_nat len + z) else Z.min (Z.of_nat len) z.
  Lemma slice_position_idx len z k : slice_position len z k <-> k = slice_idx len z.
  Proof. unfold slice_position, slice_idx. destruct (Z.ltb_spec z 0); lia. Qed.

  (** *** C09: pretrained_run is one run on the training part repeated `epochs` times followed by the
      test part, of which only the test outputs are returned.  [k] is the split index
      int(len(d)*ntrain) as Python slicing reads it. *)
  Theorem C09_pretrained_run : forall (n : nat) (o : obj) (d : vec) (x : mat) (ntrain : T) (epochs k : nat),
    reachable n o -> rows_of n x -> length d = length x ->
    slice_position (length d) (ntrunc (nmul (nofnat (length d)) ntrain)) k -> 0 < k < length d ->
    let D := concat (repeat (firstn k d) epochs) ++ skipn k d in
    let X := concat (repeat (firstn k x) epochs) ++ skipn k x in
    same_filter (fst (pretrained_run d x ntrain epochs o)) (fst (run D X o)) /\
    snd (pretrained_run d x ntrain epochs o) =
      rmap (fun '(y, e, w) => (skipn (epochs * k) y, skipn (epochs * k) e, skipn (epochs * k) w))
           (snd (run D X o)).
  Proof.
    intros n o d x ntrain epochs k Hr Hx Hl Hk Hkl; cbv zeta. apply slice_position_idx in Hk.
    unfold pretrained_run, slice_to, slice_from. rewrite <- Hl, <- Hk.
    assert (Hxt : rows_of n (firstn k x)) by (apply firstn_rows; auto).
    assert (Hxs : rows_of n (skipn k x)) by (apply skipn_rows; auto).
    assert (Hlt : length (firstn k d) = length (firstn k x)) by (rewrite !firstn_length; lia).
    assert (Hlk : length (firstn k x) = k) by (rewrite firstn_length; lia).
    assert (Hls : length (skipn k d) = length (skipn k x)) by (rewrite !skipn_length; lia).
    assert (Hnt : firstn k x <> []) by (intros E; rewrite E in Hlk; simpl in Hlk; lia).
    assert (Hns : skipn k x <> []).
    { intros E; apply (f_equal (@length _)) in E; rewrite skipn_length in E; simpl in E; lia. }
    revert Hxt Hxs Hlt Hlk Hls Hnt Hns. generalize (firstn k d) (firstn k x) (skipn k d) (skipn k x).
    intros d1 x1 d2 x2 Hx1 Hx2 Hl1 Hlk Hl2 Hn1 Hn2. clear Hx Hl Hk Hkl d x.
    revert o Hr; induction epochs as [|ep IH]; intros o Hr; cbn [repeat concat app repeat_m].
    - unfold bind, ret. split; [repeat split|].
      destruct (snd (run d2 x2 o)) as [[[y e] w]|]; reflexivity.
    - rewrite <- !app_assoc.
      assert (Hrest : rows_of n (concat (repeat x1 ep) ++ x2)).
      { apply Forall_app; split; auto. clear -Hx1; induction ep; simpl; [constructor|].
        apply Forall_app; split; auto. }
      assert (Hlrest : length (concat (repeat d1 ep) ++ d2) = length (concat (repeat x1 ep) ++ x2)).
      { rewrite !app_length; f_equal; auto. clear -Hl1; induction ep; simpl; auto.
        rewrite !app_length; lia. }
      assert (Hnrest : concat (repeat x1 ep) ++ x2 <> []).
      { intros E; apply app_eq_nil in E as (_ & E); auto. }
      destruct (C03_chunked n o d1 _ x1 _ Hr Hx1 Hrest Hl1 Hlrest Hn1 Hnrest) as (HA & HB).
      cbv zeta in HA, HB. rewrite HB.
      assert (Hlen : forall o1 y1 e1 w1, run d1 x1 o = (o1, Ok (y1, e1, w1)) ->
                length y1 = k /\ length e1 = k /\ length w1 = k).
      { intros o1 y1 e1 w1 E1. destruct (C07_run_total n o d1 x1 Hr Hx1 Hl1 Hn1) as
          [(y & e & w & E & H1 & H2 & H3 & _) | (ex & E & _)];
        rewrite E1 in E; [injection E as -> -> ->|discriminate]. repeat split; congruence. }
      pose proof (reach_op n o (OpRun d1 x1) Hr Hx1) as Hr1. simpl in Hr1.
      unfold bind in *. destruct (run d1 x1 o) as [o1 [[[y1 e1] w1]|ex]] eqn:E1; cbn [fst snd] in *.
      + specialize (IH o1 Hr1).
        unfold bind, ret in *. destruct (repeat_m ep _ o1) as [o2 [[]|ex]] eqn:E2; cbn [fst snd] in *.
        * destruct IH as (IHa & IHb).
          destruct (run (concat (repeat d1 ep) ++ d2) (concat (repeat x1 ep) ++ x2) o1)
            as [o3 [[[y3 e3] w3]|ex3]] eqn:E3; cbn [fst snd rmap] in *.
          -- split; [clear -HA IHa; unfold same_filter in *; intuition congruence|].
             rewrite IHb. destruct (Hlen _ _ _ _ eq_refl) as (Hly & Hle & Hlw).
             cbn [Nat.mul]. rewrite !skipn_app.
             rewrite (skipn_all2 y1), (skipn_all2 e1), (skipn_all2 w1) by lia.
             rewrite Hly, Hle, Hlw. replace (k + ep * k - k) with (ep * k) by lia. reflexivity.
          -- split; [clear -HA IHa; unfold same_filter in *; intuition congruence|exact IHb].
        * destruct IH as (IHa & IHb).
          destruct (run (concat (repeat d1 ep) ++ d2) (concat (repeat x1 ep) ++ x2) o1)
            as [o3 [[[y3 e3] w3]|ex3]] eqn:E3; cbn [fst snd rmap] in *; [discriminate|].
          split; [clear -HA IHa; unfold same_filter in *; intuition congruence|exact IHb].
      + split; [|reflexivity]. clear -HA; unfold same_filter in *; intuition congruence.
  Qed.

  Theorem C09_output_lengths : forall (n : nat) (o o' : obj) (d : vec) (x : mat) (ntrain : T) (epochs k : nat) y e w,
    reachable n o -> rows_of n x -> length d = length x ->
    slice_position (length d) (ntrunc (nmul (nofnat (length d)) ntrain)) k ->
    pretrained_run d x ntrain epochs o = (o', Ok (y, e, w)) ->
    length y = length d - k /\ length e = length d - k /\ length w = length d - k.
  Proof.
    intros n o o' d x ntrain epochs k y e w Hr Hx Hl Hk E. apply slice_position_idx in Hk.
    unfold pretrained_run, slice_to, slice_from in E. rewrite <- Hl, <- Hk in E.
    unfold bind at 1 in E.
    match type of E with context [repeat_m epochs ?m o] =>
      assert (Hr1 : reachable n (fst (repeat_m epochs m o)))
    end.
    { clear E. revert o Hr; induction epochs as [|ep IH]; intros o Hr; cbn [repeat_m]; [exact Hr|].
      unfold bind, ret in *.
      pose proof (reach_op n o (OpRun (firstn k d) (firstn k x)) Hr (firstn_rows n x k Hx)) as H1.
      simpl in H1. destruct (run (firstn k d) (firstn k x) o) as [o1 [a|ex]]; cbn [fst] in *; [apply IH|]; exact H1. }
    destruct (repeat_m _ _ o) as [o1 [[]|ex]]; [|discriminate]. cbn [fst] in Hr1.
    destruct (skipn k x) as [|x0 xs] eqn:Es.
    { destruct (skipn k d); discriminate. }
    assert (Hxs : rows_of n (x0 :: xs)) by (rewrite <- Es; apply skipn_rows; auto).
    assert (Hls : length (skipn k d) = length (x0 :: xs)) by (rewrite <- Es, !skipn_length; lia).
    destruct (C07_run_total n o1 (skipn k d) (x0 :: xs) Hr1 Hxs Hls) as
      [(y1 & e1 & w1 & E1 & H1 & H2 & H3 & _) | (ex & E1 & _)]; [discriminate| |];
      rewrite E in E1; [injection E1 as -> -> ->|discriminate].
    rewrite skipn_length in Hls. repeat split; congruence.
  Qed.

  Theorem C09_no_training_data : forall (o : obj) (d : vec) (x : mat) (ntrain : T) (epochs : nat),
    length d = length x -> 1 <= epochs ->
    slice_position (length d) (ntrunc (nmul (nofnat (length d)) ntrain)) 0 ->
    pretrained_run d x ntrain epochs o = (o, Err IndexError).
  Proof.
    intros o d x ntrain epochs Hl He Hk; unfold pretrained_run, slice_to. apply slice_position_idx in Hk. rewrite <- Hl, <- Hk.
    destruct epochs; [lia|]. reflexivity.
  Qed.

  Theorem C09_no_test_data : forall (n : nat) (o : obj) (d : vec) (x : mat) (ntrain : T) (epochs : nat),
    reachable n o -> rows_of n x -> length d = length x ->
    slice_position (length d) (ntrunc (nmul (nofnat (length d)) ntrain)) (length d) ->
    exists ex, snd (pretrained_run d x ntrain epochs o) = Err ex /\ (ex = IndexError \/ soft_exn o ex).
  Proof.
    intros n o d x ntrain epochs Hr Hx Hl Hk; unfold pretrained_run, slice_to, slice_from. apply slice_position_idx in Hk.
    apply reachable_wf in Hr.
    rewrite <- Hl, <- Hk. rewrite !skipn_all2 by lia. rewrite !firstn_all2 by lia.
    revert o Hr; induction epochs as [|ep IH]; intros o Hr; cbn [repeat_m].
    - exists IndexError; split; [reflexivity|auto].
    - destruct x as [|x0 xs].
      { destruct d; [|discriminate]. exists IndexError; split; [reflexivity|auto]. }
      destruct (run_eq n o d (x0 :: xs) Hr Hx Hl) as (h & E & _); [discriminate|].
      unfold bind in *. rewrite E.
      destruct (adapt_all_ok n d (x0 :: xs) o Hr Hx) as (o1 & r1 & E1 & Hwf1 & _ & Hf1 & Hr1).
      rewrite E1. destruct Hr1 as [-> | (ex & -> & Hs)]; cbn [fst snd rmap].
      + destruct (IH (set_hist h o1)) as (ex & Hex & Hs); [exact Hwf1|].
        unfold ret in *. exists ex; split; [exact Hex|]. destruct Hs as [Hs|Hs]; [auto|right].
        clear -Hs Hf1; unfold soft_exn in *; destruct Hf1 as (_ & Hmu & Hk); simpl in Hs.
        destruct (o_ext o), (o_ext o1); simpl in *; try discriminate; try contradiction; auto.
        rewrite <- Hmu; auto.
      + exists ex; auto.
  Qed.
End Props.

(** ** Witnesses over exact rationals.  The solver is the exact one for 1 x 1 systems. *)
Definition qsolve1 (A B : list (list Q)) : option (list (list Q)) :=
  match A, B with
  | [[a]], [[b]] => if Qeq_bool a 0 then None else Some [[Qred (b / a)]]
  | _, _ => None
  end.
#[global] Instance QI : Num Q := QNum qsolve1.

Definition rng0 (k : nat) : list Q := repeat 0%Q k.
Lemma rng0_ok : rng_ok rng0.
Proof. intros k; apply repeat_length. Qed.

(** every class can be built: all keyword sets of the form n=, mu=, mem= are accepted *)
Definition kwq (n : nat) (mu : Q) (w : list Q) (mem order : option nat) : kwargs Q :=
  mkKw (Some (Z.of_nat n)) (Some mu) (Some (WVec w)) None None None None None order None mem false.
Definition mk (k : kind) (mu : Q) (w : list Q) (mem order : option nat) : result (obj Q) :=
  new_filter rng0 k (kwq (length w) mu w mem order).
Definition get_ok {A} (dflt : A) (r : result A) : A := match r with Ok a => a | Err _ => dflt end.
Definition obj0 : obj Q := mkObj [] 0 0%Q None XBase.

Lemma mk_reachable k mu w mem order : (forall m, mem = Some m -> 1 <= m) ->
  (forall m, order = Some m -> 1 <= m) ->
  forall o, mk k mu w mem order = Ok o -> reachable (length w) o.
Proof.
  intros H1 H2 o E; apply (reach_new _ rng0 k (kwq (length w) mu w mem order)); [exact rng0_ok| |reflexivity|exact E].
  split; [exact H1|exact H2].
Qed.

(** the hypotheses of C01-C09 are met by every class *)
Example C01_every_class_reachable : forall k, exists o, reachable 2 o /\
  mk k (1 # 2) [1; (1 # 3)]%Q (match k with KOCNLMS => Some 3 | _ => None end)
       (match k with KAP => Some 2 | _ => None end) = Ok o.
Proof.
  intros k.
  assert (H : exists o, mk k (1 # 2) [1; (1 # 3)]%Q (match k with KOCNLMS => Some 3 | _ => None end)
       (match k with KAP => Some 2 | _ => None end) = Ok o) by (destruct k; eexists; reflexivity).
  destruct H as (o & Ho); exists o; split; [|exact Ho].
  eapply (mk_reachable k _ [1; (1 # 3)]%Q); [| |exact Ho]; destruct k; intros m; intros [= <-]; lia.
Qed.

Definition q_nlms : obj Q := get_ok obj0 (mk KNLMS (1 # 2) [0; 0]%Q None None).
Example q_nlms_reachable : reachable 2 q_nlms.
Proof. apply (mk_reachable KNLMS (1 # 2) [0; 0]%Q None None); try discriminate. vm_compute; reflexivity. Qed.

(** C02 negative part: the weights after the last sample are not in the returned history *)
Theorem C02_final_weights_in_history_refuted :
  exists (o o' : obj Q) d x y e w, reachable 2 o /\ rows_of 2 x /\
    run d x o = (o', Ok (y, e, w)) /\ ~ In (o_w o') w.
Proof.
  exists q_nlms. eexists. exists [1; 2]%Q, [[1; 0]; [1; 1]]%Q. do 3 eexists.
  split; [exact q_nlms_reachable|]. split; [repeat constructor|].
  split; [vm_compute; reflexivity|].
  vm_compute. intros [H|[H|[]]]; discriminate.
Qed.

Definition q_ocnlms : obj Q := get_ok obj0 (mk KOCNLMS (1 # 2) [0]%Q (Some 2) None).
Example q_ocnlms_reachable : reachable 1 q_ocnlms.
Proof.
  apply (mk_reachable KOCNLMS (1 # 2) [0]%Q (Some 2) None); try discriminate.
  - intros m [= <-]; lia.
  - vm_compute; reflexivity.
Qed.

(** C05 for OCNLMS is false: predict before adapt shifts the memory *)
Theorem C05_realtime_loop_OCNLMS_refuted :
  exists (o : obj Q) d x, reachable 1 o /\ rows_of 1 x /\ length d = length x /\
    snd (online_loop d x o) <> rmap (fun '(y, e, w) => y) (snd (run d x o)).
Proof.
  exists q_ocnlms, [1; 2; 3]%Q, [[1]; [2]; [3]]%Q.
  split; [exact q_ocnlms_reachable|]. split; [repeat constructor|]. split; [reflexivity|].
  vm_compute; discriminate.
Qed.

(** C06 for OCNLMS is false: one extra predict changes the weights learned later *)
Theorem C06_predict_pure_OCNLMS_refuted :
  exists (o : obj Q) d x, reachable 1 o /\ rows_of 1 x /\
    o_w (fst (adapt_all d x (fst (predict [1]%Q o)))) <> o_w (fst (adapt_all d x o)).
Proof.
  exists (get_ok obj0 (mk KOCNLMS (1 # 2) [0]%Q (Some 3) None)), [1; 2; 3; 5]%Q, [[1]; [2]; [3]; [4]]%Q.
  split.
  { apply (mk_reachable KOCNLMS (1 # 2) [0]%Q (Some 3) None); try discriminate.
    - intros m [= <-]; lia.
    - vm_compute; reflexivity. } split; [repeat constructor|].
  vm_compute; discriminate.
Qed.

(** C08: a rejected run breaks a VSLMS_Benveniste filter: adapt on good data worked before and
    raises afterwards *)
Definition q_benv : obj Q := get_ok obj0 (mk KBenveniste (1 # 2) [0; 0]%Q None None).
Theorem C08_rejected_run_breaks_Benveniste :
  exists (o : obj Q) bad_d bad_x d x, reachable 2 o /\ length x = 2 /\
    snd (run bad_d bad_x o) = Err ValueError /\
    snd (adapt d x o) = Ok tt /\ snd (adapt d x (fst (run bad_d bad_x o))) = Err ValueError.
Proof.
  exists q_benv, [1]%Q, [[1; 2; 3]]%Q, 1%Q, [1; 2]%Q.
  split; [|vm_compute; auto].
  apply (mk_reachable KBenveniste (1 # 2) [0; 0]%Q None None); try discriminate. vm_compute; reflexivity.
Qed.

(** C08: AP and OCNLMS accept a vector of length 1 for a filter of size 2 and change the weights *)
Definition q_ap : obj Q := get_ok obj0 (mk KAP (1 # 2) [0; 0]%Q None (Some 1)).
Theorem C08_adapt_length1_AP_refuted :
  exists (o : obj Q) d x, reachable 2 o /\ length x = 1 /\ is_AP o = true /\
    snd (adapt d x o) = Ok tt /\ o_w (fst (adapt d x o)) <> o_w o.
Proof.
  exists q_ap, 1%Q, [1]%Q. split; [|vm_compute; repeat split; discriminate].
  apply (mk_reachable KAP (1 # 2) [0; 0]%Q None (Some 1)); try discriminate.
  - intros m [= <-]; lia.
  - vm_compute; reflexivity.
Qed.
Definition q_oc2 : obj Q := get_ok obj0 (mk KOCNLMS (1 # 2) [0; 0]%Q (Some 3) None).
Theorem C08_adapt_length1_OCNLMS_refuted :
  exists (o : obj Q) d x, reachable 2 o /\ length x = 1 /\ is_OCNLMS o = true /\
    snd (adapt d x o) = Ok tt.
Proof.
  exists (exec (OpAdapt 1%Q [1; 1]%Q) q_oc2), 1%Q, [1]%Q. split; [|vm_compute; repeat split; discriminate].
  apply reach_op; [|reflexivity].
  apply (mk_reachable KOCNLMS (1 # 2) [0; 0]%Q (Some 3) None); try discriminate.
  - intros m [= <-]; lia.
  - vm_compute; reflexivity.
Qed.

(** C09: a non-trivial split is reachable: 4 samples, ntrain = 1/2, 2 epochs *)
Example C09_witness :
  slice_position 4 (ntrunc (nmul (nofnat 4) (1 # 2)%Q)) 2 /\ slice_position 4 (ntrunc (nmul (nofnat 4) (-1 # 4)%Q)) 3 /\
  exists o' y e w, pretrained_run [1; 2; 3; 4]%Q [[1; 0]; [0; 1]; [1; 1]; [2; 1]]%Q (1 # 2)%Q 2 q_nlms
    = (o', Ok (y, e, w)) /\ length y = 2 /\ o_w o' <> o_w q_nlms.
Proof.
  split; [reflexivity|]. split; [reflexivity|]. do 4 eexists. split; [vm_compute; reflexivity|].
  split; [reflexivity|]. vm_compute; discriminate.
Qed.
