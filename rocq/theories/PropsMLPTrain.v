(** Property C67: training the perceptron can be interrupted; for any arithmetic. *)
From Coq Require Import Permutation.
From Verif Require Import Py Num Numpy Spec Mlp PropsMLP.
Open Scope nat_scope.

Section Rounds.
  Context {T : Type} {NT : Num T}.
  Notation vec := (list T).
  Notation mat := (list (list T)).
  Notation net := (net T).
  Notation val := (val T).

  Lemma slice_app (e e2 : list val) j N : (j + 1) * N <= length e -> slice (e ++ e2) (j * N) ((j + 1) * N - 1) = slice e (j * N) ((j + 1) * N - 1).
  Proof.
    intros H. unfold slice. rewrite skipn_app, firstn_app, skipn_length.
    replace ((j + 1) * N - 1 - j * N - (length e - j * N)) with 0 by lia. rewrite firstn_O, app_nil_r. reflexivity.
  Qed.
  Lemma epoch_loop_len data : forall n n' es, epoch_loop (T := T) data n = (n', Ok es) -> length es = length data.
  Proof.
    induction data as [|[x d] data IH]; intros n n' es H; cbn [epoch_loop] in H; [injection H as _ <-; reflexivity|].
    unfold bind in H. destruct (net_predict x n) as [n1' [y|]]; [|discriminate]. destruct (net_update d n1') as [n2' [e|]]; [|discriminate].
    destruct (epoch_loop data n2') as [n3 [es'|]] eqn:E; [|discriminate]. injection H as _ <-. simpl. f_equal. eapply IH; eauto.
  Qed.
  (** the loop started later, or with errors of earlier epochs in front, does the same *)
  Lemma epochs_loop_shift data (e0 : list val) i0 (m0 : vec) : length e0 = i0 * length data -> forall k i e ms n, length e = i * length data ->
    epochs_loop k (i0 + i) data (e0 ++ e) (m0 ++ ms) n =
      (fst (epochs_loop k i data e ms n), rmap (fun r => (e0 ++ fst r, m0 ++ snd r)) (snd (epochs_loop k i data e ms n))).
  Proof.
    intros H0. induction k as [|k IH]; intros i e ms n He; cbn [epochs_loop]; [reflexivity|]. unfold bind.
    destruct (epoch_loop data n) as [n' [es|x]] eqn:E; [|reflexivity]. pose proof (epoch_loop_len _ _ _ _ E) as Hl.
    rewrite <- !app_assoc. replace (S (i0 + i)) with (i0 + S i) by lia.
    assert (Em : epoch_mse (e0 ++ e ++ es) (i0 + i) (length data) = epoch_mse (e ++ es) i (length data)).
    { unfold epoch_mse. do 5 f_equal. unfold slice. rewrite skipn_app, skipn_all2 by lia. cbn [app].
      replace ((i0 + i) * length data - length e0) with (i * length data) by lia.
      replace ((i0 + i + 1) * length data - 1 - (i0 + i) * length data) with ((i + 1) * length data - 1 - i * length data) by lia. reflexivity. }
    rewrite Em. rewrite IH; [reflexivity|]. rewrite app_length. lia.
  Qed.
  Lemma epochs_loop_split data a b : forall i e ms (n : net), length e = i * length data ->
    epochs_loop (a + b) i data e ms n = match epochs_loop a i data e ms n with
      | (n', Ok (e', ms')) => epochs_loop b (i + a) data e' ms' n'
      | (n', Err x) => (n', Err x)
      end /\ forall n' e' ms', epochs_loop a i data e ms n = (n', Ok (e', ms')) -> length e' = (i + a) * length data.
  Proof.
    induction a as [|a IH]; intros i e ms n He; cbn [Nat.add epochs_loop].
    - unfold ret. rewrite Nat.add_0_r. split; auto. intros n' e' ms' E. injection E as _ <- _. auto.
    - unfold bind. destruct (epoch_loop data n) as [n1' [es|x]] eqn:E; [|split; [reflexivity|discriminate]].
      pose proof (epoch_loop_len _ _ _ _ E) as Hl.
      destruct (IH (S i) (e ++ es) (ms ++ [epoch_mse (e ++ es) i (length data)]) n1') as (I1 & I2); [rewrite app_length; lia|].
      rewrite I1. replace (S i + a) with (i + S a) in * by lia. auto.
  Qed.

  (** C67: training for a epochs and then for b more epochs on the same data, without shuffling, is training for
      a + b epochs: the same final network, the same errors and the same reported MSE values, one after the other.
      No assumption on the network or the data: an exception in the first a epochs is the exception of the whole
      training, an exception in the last b epochs leaves the same network behind *)
  Theorem C67_train_in_rounds : forall (n : net) x d a b,
    net_train x d (a + b) None n =
      match net_train x d a None n with
      | (n1, Err x) => (n1, Err x)
      | (n1, Ok (e1, m1)) =>
          match net_train x d b None n1 with
          | (n2, Err x) => (n2, Err x)
          | (n2, Ok (e2, m2)) => (n2, Ok (e1 ++ e2, m1 ++ m2))
          end
      end.
  Proof.
    intros n x d a b. unfold net_train at 1 2. destruct (check_data x d n) as [ds|x0] eqn:Ec; [|reflexivity].
    destruct (epochs_loop_split (combine x ds) a b 0 [] [] n eq_refl) as (S1 & S2). rewrite S1.
    destruct (epochs_loop a 0 (combine x ds) [] [] n) as [n' [[e' ms']|x0]] eqn:Ea; [|reflexivity].
    specialize (S2 _ _ _ eq_refl).
    assert (Ec' : check_data x d n' = Ok ds).
    { assert (Hk : m_n n' = m_n n /\ m_outputs n' = m_outputs n /\ (match m_w n', m_w n with W1 _, W1 _ | W2 _, W2 _ => True | _, _ => False end)).
      { clear - Ea. assert (G : forall k i e ms n n' r, epochs_loop (T := T) k i (combine x ds) e ms n = (n', r) ->
          m_n n' = m_n n /\ m_outputs n' = m_outputs n /\ (match m_w n', m_w n with W1 _, W1 _ | W2 _, W2 _ => True | _, _ => False end)).
        2:{ eapply G; eauto. }
        clear. set (same := fun n' n : net => m_n n' = m_n n /\ m_outputs n' = m_outputs n /\ (match m_w n', m_w n with W1 _, W1 _ | W2 _, W2 _ => True | _, _ => False end)).
        assert (Rf : forall n, same n n) by (intros n; unfold same; destruct (m_w n); auto).
        assert (Tr : forall a b c, same a b -> same b c -> same a c).
        { unfold same. intros p q r (A1 & A2 & A3) (B1 & B2 & B3). repeat split; try congruence. destruct (m_w p), (m_w q), (m_w r); auto. }
        assert (P : forall x n, same (fst (net_predict x n)) n).
        { intros x0 n. pose proof (net_predict_params x0 n) as Hp. unfold params in Hp. injection Hp as _ H1 H2 H3 _.
          unfold same. rewrite H1, H2, H3. destruct (m_w n); auto. }
        assert (U : forall d n, same (fst (net_update d n)) n).
        { intros d0 n. unfold net_update. destruct (val_sub d0 (m_y n)) as [e|]; [|apply Rf].
          destruct (out_step _ _ _ _) as [[w' wold]|] eqn:Eo; [|apply Rf]. destruct (update_layers _ _ _) as [ls r]. unfold same. cbn [fst m_n m_outputs m_w].
          repeat split. unfold out_step in Eo. destruct (m_w n) as [w|W].
          - destruct (match e with VNum a => _ | VArr v => _ end); [|discriminate]. cbn [rbind] in Eo. destruct (iadd1 _ _); [|discriminate].
            cbn [rmap] in Eo. injection Eo as <- _. exact I.
          - destruct (iadd2 _ _); [|discriminate]. cbn [rmap] in Eo. injection Eo as <- _. exact I. }
        assert (L : forall data n, same (fst (epoch_loop data n)) n).
        { induction data as [|[x0 d0] data IH]; intros n; cbn [epoch_loop]; [apply Rf|]. unfold bind.
          specialize (P x0 n). destruct (net_predict x0 n) as [n1' [y|]]; auto. cbn [fst] in P.
          specialize (U d0 n1'). destruct (net_update d0 n1') as [n2' [e|]]; cbn [fst] in U; [|eapply Tr; eauto].
          specialize (IH n2'). destruct (epoch_loop data n2') as [n3 [es|]]; cbn [fst ret] in *; eauto. }
        induction k as [|k IH]; intros i e ms n n' r E; cbn [epochs_loop] in E; [injection E as <- _; apply Rf|]. unfold bind in E.
        specialize (L (combine x ds) n). destruct (epoch_loop (combine x ds) n) as [n1' [es|]]; cbn [fst] in L; [|injection E as <- _; auto].
        eapply Tr; [eapply IH; eauto|auto]. }
      destruct Hk as (K1 & K2 & K3). unfold check_data in *. rewrite K1, K2. destruct (m_w n'), (m_w n); auto; contradiction. }
    unfold net_train. rewrite Ec'.
    pose proof (epochs_loop_shift (combine x ds) e' a ms' ltac:(simpl in S2; auto) b 0 [] [] n' eq_refl) as Sh.
    rewrite !app_nil_r, Nat.add_0_r in Sh. cbn [Nat.add]. rewrite Sh.
    destruct (epochs_loop b 0 (combine x ds) [] [] n') as [n2 [[e2 m2]|x0]]; reflexivity.
  Qed.

  (** one epoch over x1 followed by x2 reaches the same network, with the same errors, as an epoch over x1 and then
      an epoch over x2 (the reported MSE values differ: they are per call) *)
  Theorem C67_train_in_batches : forall sizes n_input outputs (n : net) x1 x2 d1 d2 d ds1 ds2,
    net_reach sizes n_input outputs n -> rows_of n_input x1 -> rows_of n_input x2 -> x1 <> [] -> x2 <> [] ->
    fits outputs (length x1) d1 ds1 -> fits outputs (length x2) d2 ds2 -> fits outputs (length (x1 ++ x2)) d (ds1 ++ ds2) ->
    exists n1 n2 e1 e2 m1 m2 m,
      net_train x1 d1 1 None n = (n1, Ok (e1, m1)) /\ net_train x2 d2 1 None n1 = (n2, Ok (e2, m2)) /\
      net_train (x1 ++ x2) d 1 None n = (n2, Ok (e1 ++ e2, m)).
  Proof.
    intros sizes k o n x1 x2 d1 d2 d ds1 ds2 H R1 R2 E1 E2 F1 F2 F. pose proof (net_reach_ok _ _ _ _ H) as Ho.
    assert (R12 : rows_of k (x1 ++ x2)) by (apply Forall_app; auto).
    assert (E12 : x1 ++ x2 <> []) by (destruct x1; [contradiction|discriminate]).
    destruct (check_ok sizes k o n x1 d1 ds1 Ho R1 E1 F1) as (C1 & L1 & V1).
    destruct (check_ok sizes k o n (x1 ++ x2) d (ds1 ++ ds2) Ho R12 E12 F) as (C & L & V).
    assert (S1 : Forall (sample_ok k o) (combine x1 ds1)).
    { apply Forall_forall. intros [a b] Hab. pose proof (in_combine_l _ _ _ _ Hab) as Ha. pose proof (in_combine_r _ _ _ _ Hab) as Hb.
      unfold rows_of in R1. rewrite Forall_forall in R1, V1. split; simpl; auto. }
    pose proof (learned_ok sizes k o (combine x1 ds1) n Ho) as Hn1.
    destruct (check_ok sizes k o (learned n (combine x1 ds1)) x2 d2 ds2 Hn1 R2 E2 F2) as (C2 & L2 & V2).
    assert (S2 : Forall (sample_ok k o) (combine x2 ds2)).
    { apply Forall_forall. intros [a b] Hab. pose proof (in_combine_l _ _ _ _ Hab) as Ha. pose proof (in_combine_r _ _ _ _ Hab) as Hb.
      unfold rows_of in R2. rewrite Forall_forall in R2, V2. split; simpl; auto. }
    assert (Ecb : combine (x1 ++ x2) (ds1 ++ ds2) = combine x1 ds1 ++ combine x2 ds2).
    { clear - L1. revert ds1 L1. induction x1 as [|a x1 IH]; intros [|b ds1] L1; simpl in *; try lia; auto. f_equal. apply IH. lia. }
    assert (S12 : Forall (sample_ok k o) (combine x1 ds1 ++ combine x2 ds2)) by (apply Forall_app; auto).
    unfold net_train at 1 3. rewrite C1, C, Ecb. cbn [epochs_loop]. unfold bind at 1 2.
    rewrite (epoch_loop_ok sizes k o _ n Ho S1), (epoch_loop_ok sizes k o _ n Ho S12). unfold ret.
    exists (learned n (combine x1 ds1)), (learned (learned n (combine x1 ds1)) (combine x2 ds2)).
    do 5 eexists. split; [reflexivity|]. split.
    - unfold net_train. rewrite C2. cbn [epochs_loop]. unfold bind. rewrite (epoch_loop_ok sizes k o _ _ Hn1 S2). reflexivity.
    - cbn [app]. rewrite errors_app. unfold learned at 1 2 3. rewrite fold_left_app. reflexivity.
  Qed.
End Rounds.
