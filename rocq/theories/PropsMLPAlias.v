(** Property C82: reuse of the caller's arrays with a multi-layer perceptron.  Input vectors and targets may be overwritten
    at any time; the array returned by predict of a network with several outputs is the network's own memory of its output:
    it may be overwritten only if predict comes before the next update. *)
From Coq Require Import QArith.
From Verif Require Import Py Num Numpy Spec StructProofs Mlp PropsMLP MlpAlias.
Open Scope nat_scope.

Section C82.
  Context {T : Type} {NT : Num T}.
  Notation vec := (list T).
  Notation mat := (list (list T)).
  Notation net := (net T).
  Notation val := (val T).

  (** ** Specification *)
  (** what a program can do: create an array, overwrite one in place, call the network with arrays it owns.  Arrays are
      numbered in the order the program gets them, arrays returned by predict and update included. *)
  Inductive act : Type :=
  | ANew (v : vec)
  | AWrite (b : nat) (v : vec)
  | APredict (b : nat)
  | AUpdate (d : target T)
  | ATrain (x : mat) (d : darg T) (epochs : nat) (shuffle : option (list nat))
  | ARun (x : mat)
  | ATest (x : mat) (d : darg T).
  Inductive answer : Type := ANone | AVal (r : result val) | AVals (r : result (list val)) | ATrained (r : result (list val * vec)).

  (** the real behaviour: references *)
  Definition hstep (c : act) (s : mstate T) : mstate T * answer :=
    match c with
    | ANew v => (mkMstate (harr s ++ [v]) (hnet s) (hlive s), ANone)
    | AWrite b v => (mkMstate (set_nth b v (harr s)) (hnet s) (hlive s), ANone)
    | APredict b => let '(s', r) := predict_m b s in (s', AVal r)
    | AUpdate d => let '(s', r) := update_m d s in (s', AVal r)
    | ATrain x d k sh => let '(s', r) := train_m x d k sh s in (s', ATrained r)
    | ARun x => let '(s', r) := run_m x s in (s', AVals r)
    | ATest x d => let '(s', r) := test_m x d s in (s', AVals r)
    end.

  (** the expected behaviour: every call gets copies and returns copies *)
  Definition sstep (c : act) (s : list vec * net) : (list vec * net) * answer :=
    let '(B, n) := s in
    match c with
    | ANew v => ((B ++ [v], n), ANone)
    | AWrite b v => ((set_nth b v B, n), ANone)
    | APredict b => let '(n', r) := net_predict (nth b B []) n in ((keep_result r B, n'), AVal r)
    | AUpdate d => let '(n', r) := net_update (deref d B) n in ((keep_result r B, n'), AVal r)
    | ATrain x d k sh => let '(n', r) := net_train x d k sh n in ((B, n'), ATrained r)
    | ARun x => let '(n', r) := net_run x n in ((B, n'), AVals r)
    | ATest x d => let '(n', r) := net_test x d n in ((B, n'), AVals r)
    end.

  Fixpoint hrun (cs : list act) (s : mstate T) : mstate T * list answer :=
    match cs with [] => (s, []) | c :: cs' => let '(s', a) := hstep c s in let '(s'', l) := hrun cs' s' in (s'', a :: l) end.
  Fixpoint srun (cs : list act) (s : list vec * net) : (list vec * net) * list answer :=
    match cs with [] => (s, []) | c :: cs' => let '(s', a) := sstep c s in let '(s'', l) := srun cs' s' in (s'', a :: l) end.

  (** The discipline, in terms of the expected behaviour only.  [last]: the array returned by the last predict;
      [dirty]: it was overwritten since.  update may not come while it is overwritten; the next predict, train,
      run or test (of at least one row) ends that state. *)
  Fixpoint disciplined (last : option nat) (dirty : bool) (cs : list act) (s : list vec * net) : Prop :=
    match cs with
    | [] => True
    | c :: cs' =>
        let '(s', a) := sstep c s in
        match c, a with
        | AWrite b _, _ => disciplined last (dirty || match last with Some l => l =? b | None => false end) cs' s'
        | APredict _, AVal (Ok (VArr _)) => disciplined (Some (length (fst s))) false cs' s'
        | APredict _, AVal (Ok (VNum _)) => disciplined None false cs' s'
        | AUpdate _, _ => dirty = false /\ disciplined last dirty cs' s'
        | ATrain _ _ _ _, ATrained (Ok (_ :: _, _)) => disciplined None false cs' s'
        | ARun _, AVals (Ok (_ :: _)) => disciplined None false cs' s'
        | ATest _ _, AVals (Ok (_ :: _)) => disciplined None false cs' s'
        | _, _ => disciplined last dirty cs' s'
        end
    end.
  (** a simple sufficient condition: no array that a predict returned is ever overwritten *)
  Fixpoint hands_off (ret : list nat) (cs : list act) (s : list vec * net) : Prop :=
    match cs with
    | [] => True
    | c :: cs' =>
        let '(s', a) := sstep c s in
        match c, a with
        | AWrite b _, _ => ~ In b ret /\ hands_off ret cs' s'
        | APredict _, AVal (Ok (VArr _)) => hands_off (length (fst s) :: ret) cs' s'
        | _, _ => hands_off ret cs' s'
        end
    end.

  (** ** Lemmas *)
  Lemma with_y_same (n : net) : with_y (m_y n) n = n.
  Proof. destruct n; reflexivity. Qed.
  Lemma with_y_with y y' (n : net) : with_y y (with_y y' n) = with_y y n.
  Proof. reflexivity. Qed.

  (** predict does not look at self.y *)
  Lemma predict_y y x (n : net) :
    net_predict x (with_y y n) =
      (match snd (net_predict x n) with Ok _ => fst (net_predict x n) | Err _ => with_y y (fst (net_predict x n)) end,
       snd (net_predict x n)).
  Proof.
    unfold net_predict. cbn [with_y m_layers m_x m_w m_y m_mu m_n m_outputs].
    destruct (predict_layers (m_layers n) x) as [ls [h|e]]; [|reflexivity].
    destruct (assign_tail (m_x n) (length (m_x n) - 1) h) as [xs|e]; [|reflexivity].
    destruct (m_w n) as [w|w].
    - destruct (rmap VNum (vdot w xs)) as [y0|e]; reflexivity.
    - reflexivity.
  Qed.
  Lemma predict_keeps_y x (n : net) e : snd (net_predict x n) = Err e -> m_y (fst (net_predict x n)) = m_y n.
  Proof.
    unfold net_predict. destruct (predict_layers (m_layers n) x) as [ls [h|e1]]; [|reflexivity].
    destruct (assign_tail (m_x n) (length (m_x n) - 1) h) as [xs|e1]; [|reflexivity].
    destruct (match m_w n with W1 w => _ | W2 w => _ end) as [y0|e1]; [discriminate|reflexivity].
  Qed.
  Lemma predict_sets_y x (n : net) y : snd (net_predict x n) = Ok y -> m_y (fst (net_predict x n)) = y.
  Proof.
    unfold net_predict. destruct (predict_layers (m_layers n) x) as [ls [h|e1]]; [|discriminate].
    destruct (assign_tail (m_x n) (length (m_x n) - 1) h) as [xs|e1]; [|discriminate].
    destruct (match m_w n with W1 w => _ | W2 w => _ end) as [y0|e1]; [|discriminate]. cbn. congruence.
  Qed.
  Lemma run_y y x (n : net) :
    net_run x (with_y y n) =
      (if assigns x n then fst (net_run x n) else with_y y (fst (net_run x n)), snd (net_run x n)) /\
    (assigns x n = false -> m_y (fst (net_run x n)) = m_y n).
  Proof.
    destruct x as [|r x]; [split; reflexivity|]. cbn [net_run assigns]. unfold bind, ret. rewrite predict_y.
    pose proof (predict_keeps_y r n) as HK. destruct (net_predict r n) as [n' [y0|e]]; cbn [fst snd] in HK |- *.
    - split; [|discriminate]. destruct (net_run x n') as [n'' [ys|e]]; reflexivity.
    - split; [reflexivity|]. intros _. exact (HK e eq_refl).
  Qed.
  Lemma check_y y x d (n : net) : check_data x d (with_y y n) = check_data x d n.
  Proof. reflexivity. Qed.
  Lemma assigns_y y x (n : net) : assigns x (with_y y n) = assigns x n.
  Proof. destruct x as [|r x]; [reflexivity|]. cbn [assigns]. rewrite predict_y. reflexivity. Qed.
  Lemma test_y y x d (n : net) :
    let c := match check_data x d n with Ok _ => assigns x n | Err _ => false end in
    net_test x d (with_y y n) = (if c then fst (net_test x d n) else with_y y (fst (net_test x d n)), snd (net_test x d n)) /\
    (c = false -> m_y (fst (net_test x d n)) = m_y n).
  Proof.
    unfold net_test. rewrite check_y. destruct (check_data x d n) as [ds|e]; [|split; reflexivity].
    destruct (run_y y x n) as (H1 & H2). unfold bind, lift. rewrite H1. cbn zeta.
    destruct (net_run x n) as [n' [ys|e]]; cbn [fst snd] in H2 |- *; (split; [reflexivity|exact H2]).
  Qed.
  Lemma check_length x d (n : net) ds : check_data x d n = Ok ds -> length ds = length x.
  Proof.
    unfold check_data. destruct (negb (dlen d =? length x)) eqn:E; [discriminate|]. apply negb_false_iff, Nat.eqb_eq in E.
    destruct x as [|r0 x]; [discriminate|]. destruct (negb _); [discriminate|].
    destruct d as [v|v|c rows]; [discriminate| |]; destruct (m_w n); cbn [dlen] in E; try discriminate.
    - intros [= <-]. rewrite map_length. exact E.
    - destruct (c =? m_outputs n); [|discriminate]. intros [= <-]. rewrite map_length. exact E.
  Qed.
  Definition first_row (data : list (vec * val)) : mat := match data with [] => [] | (x, _) :: _ => [x] end.
  Lemma assigns_first x (ds : list val) (n : net) : length ds = length x -> assigns (first_row (combine x ds)) n = assigns x n.
  Proof. destruct x, ds; try discriminate; reflexivity. Qed.
  Lemma epochs_loop_nil k epoch e mse (n : net) : fst (epochs_loop k epoch [] e mse n) = n.
  Proof.
    revert epoch e mse; induction k as [|k IH]; intros; [reflexivity|]. cbn [epochs_loop]. unfold bind. cbn [epoch_loop ret]. apply IH.
  Qed.
  Lemma epochs_loop_nil_snd k epoch e mse (n n' : net) : snd (epochs_loop k epoch [] e mse n) = snd (epochs_loop k epoch [] e mse n').
  Proof.
    revert epoch e mse; induction k as [|k IH]; intros; [reflexivity|]. cbn [epochs_loop]. unfold bind. cbn [epoch_loop ret]. apply IH.
  Qed.
  Lemma epochs_loop_y y k epoch data e mse (n : net) :
    let c := negb (k =? 0) && assigns (first_row data) n in
    epochs_loop k epoch data e mse (with_y y n) =
      (if c then fst (epochs_loop k epoch data e mse n) else with_y y (fst (epochs_loop k epoch data e mse n)), snd (epochs_loop k epoch data e mse n)) /\
    (c = false -> m_y (fst (epochs_loop k epoch data e mse n)) = m_y n).
  Proof.
    destruct k as [|k]; [split; reflexivity|]. cbn [Nat.eqb negb andb]. destruct data as [|(x, d) data].
    - cbn [first_row assigns]. cbn zeta. rewrite epochs_loop_nil. split; [|reflexivity].
      rewrite (surjective_pairing (epochs_loop _ _ _ _ _ (with_y y n))), epochs_loop_nil, (epochs_loop_nil_snd _ _ _ _ (with_y y n) n). reflexivity.
    - cbn [first_row assigns epochs_loop epoch_loop]. unfold bind. rewrite predict_y.
      pose proof (predict_keeps_y x n) as HK. destruct (net_predict x n) as [n' [y0|e1]]; cbn [fst snd] in HK |- *.
      + split; [|discriminate]. apply surjective_pairing.
      + split; [reflexivity|]. intros _. exact (HK e1 eq_refl).
  Qed.
  Lemma train_y y x d k sh (n : net) :
    let c := match check_data x d n with
     | Ok _ => negb (k =? 0) && assigns (match sh with None => x | Some idx => take idx x [] end) n
     | Err _ => false end in
    net_train x d k sh (with_y y n) = (if c then fst (net_train x d k sh n) else with_y y (fst (net_train x d k sh n)), snd (net_train x d k sh n)) /\
    (c = false -> m_y (fst (net_train x d k sh n)) = m_y n).
  Proof.
    unfold net_train. rewrite check_y. destruct (check_data x d n) as [ds|e] eqn:E; [|split; reflexivity]. pose proof (check_length _ _ _ _ E) as HL.
    set (data := match sh with None => _ | Some idx => _ end).
    assert (HA : assigns (match sh with None => x | Some idx => take idx x [] end) n = assigns (first_row data) n).
    { symmetry. unfold data. destruct sh as [idx|]; apply assigns_first; [unfold take; rewrite !map_length; reflexivity|exact HL]. }
    rewrite HA. apply epochs_loop_y.
  Qed.
  (** a batch that returned something has assigned self.y *)
  Lemma run_assigns x (n : net) v vs : snd (net_run x n) = Ok (v :: vs) -> assigns x n = true.
  Proof.
    destruct x as [|r x]; [discriminate|]. cbn [net_run assigns]. unfold bind. destruct (net_predict r n) as [n' [y|e]]; [reflexivity|discriminate].
  Qed.
  Lemma test_assigns x d (n : net) v vs : snd (net_test x d n) = Ok (v :: vs) ->
    match check_data x d n with Ok _ => assigns x n | Err _ => false end = true.
  Proof.
    unfold net_test. destruct (check_data x d n) as [ds|e]; [|discriminate]. unfold bind, lift.
    destruct x as [|r x]; [|cbn [net_run assigns]; unfold bind; destruct (net_predict r n) as [n' [y|e]]; [reflexivity|discriminate]].
    cbn [net_run ret]. destruct ds; discriminate.
  Qed.
  Lemma epochs_nil_ok k epoch e mse (n : net) : forall r, snd (epochs_loop k epoch [] e mse n) = Ok r -> fst r = e.
  Proof.
    revert epoch e mse; induction k as [|k IH]; intros epoch e mse r; [intros [= <-]; reflexivity|]. cbn [epochs_loop]. unfold bind. cbn [epoch_loop ret].
    intros H. apply IH in H. rewrite H. apply app_nil_r.
  Qed.
  Lemma train_assigns x d k sh (n : net) v vs m : snd (net_train x d k sh n) = Ok (v :: vs, m) ->
    match check_data x d n with
     | Ok _ => negb (k =? 0) && assigns (match sh with None => x | Some idx => take idx x [] end) n
     | Err _ => false end = true.
  Proof.
    unfold net_train. destruct (check_data x d n) as [ds|e] eqn:E; [|discriminate]. pose proof (check_length _ _ _ _ E) as HL.
    set (data := match sh with None => _ | Some idx => _ end).
    assert (HA : assigns (match sh with None => x | Some idx => take idx x [] end) n = assigns (first_row data) n).
    { symmetry. unfold data. destruct sh as [idx|]; apply assigns_first; [unfold take; rewrite !map_length; reflexivity|exact HL]. }
    rewrite HA. clearbody data. destruct k as [|k]; [discriminate|]. cbn [Nat.eqb negb andb]. destruct data as [|(x0, d0) data].
    - intros H. apply epochs_nil_ok in H. discriminate.
    - cbn [epochs_loop epoch_loop first_row assigns]. unfold bind. destruct (net_predict x0 n) as [n' [y|e]]; [reflexivity|discriminate].
  Qed.
  Lemma update_keeps_y d (n : net) : m_y (fst (net_update d n)) = m_y n.
  Proof.
    unfold net_update. destruct (val_sub d (m_y n)) as [e|e]; [|reflexivity].
    destruct (out_step (m_mu n) e (m_x n) (m_w n)) as [[w' wo]|e']; [|reflexivity].
    destruct (update_layers (m_layers n) wo e). reflexivity.
  Qed.

  (** the simulation: same arrays; the network as its methods see it is the expected one, up to self.y while dirty *)
  Definition sim (last : option nat) (dirty : bool) (s : mstate T) (B : list vec) (n : net) : Prop :=
    harr s = B /\ (hlive s = last \/ hlive s = None) /\ (forall l, last = Some l -> l < length B) /\
    exists y, mload s = with_y y n /\ (dirty = false -> y = m_y n).

  (** a call that leaves the identity of self.y *)
  Lemma sim_keep last dirty s B B' (n n' : net) hn' : sim last dirty s B n ->
    (forall l, l < length B -> nth l B' [] = nth l B []) -> length B <= length B' ->
    hn' = with_y (m_y (mload s)) n' -> m_y n' = m_y n ->
    sim last dirty (mkMstate B' hn' (hlive s)) B' n'.
  Proof.
    intros (HB & Hl & Hlt & y & HL & Hy) Hn Hlen -> Hy'. split; [reflexivity|]. split; [exact Hl|].
    split; [intros l El; specialize (Hlt l El); lia|].
    exists (m_y (mload s)). split.
    - unfold mload at 1. cbn [hlive hnet harr]. destruct (hlive s) as [a|] eqn:Ea; [|reflexivity].
      destruct Hl as [Hl|Hl]; [|discriminate].
      rewrite (Hn a) by (apply Hlt; congruence). unfold mload. rewrite Ea, HB. reflexivity.
    - intros Ed. rewrite Hy', <- (Hy Ed), HL. reflexivity.
  Qed.

  Lemma sim_fresh B (n : net) last last' dirty : match last with Some l => last' = Some l /\ m_y n = VArr (nth l B []) | None => True end ->
    (forall l, last' = Some l -> l < length B) ->
    sim last' dirty (mkMstate B n last) B n.
  Proof.
    intros H Hlt. split; [reflexivity|]. split; [destruct last as [l|]; [left; symmetry; apply H|right; reflexivity]|]. split; [exact Hlt|].
    exists (m_y n). split; [|reflexivity]. unfold mload. cbn [hlive hnet harr]. destruct last as [l|]; [|symmetry; apply with_y_same].
    destruct H as (_ & ->). reflexivity.
  Qed.

  Lemma keep_result_nth r (B : list vec) l : l < length B -> nth l (keep_result r B) [] = nth l B [].
  Proof. destruct r as [[a|v]|e]; cbn [keep_result]; auto. intros H. apply app_nth1. exact H. Qed.
  Lemma keep_result_len r (B : list vec) : length B <= length (keep_result r B).
  Proof. destruct r as [[a|v]|e]; cbn [keep_result]; rewrite ?app_length; lia. Qed.

  Lemma sim_loop last dirty s B (n n' : net) c hn' : sim last dirty s B n -> hn' = (if c : bool then n' else with_y (m_y (mload s)) n') ->
    (c = false -> m_y n' = m_y n) ->
    sim last dirty (after_loop c hn' s) B n' /\ (c = true -> sim None false (after_loop c hn' s) B n').
  Proof.
    intros HS -> Hy. pose proof HS as (HB & _ & Hlt & _). unfold after_loop. rewrite HB. destruct c.
    - split; [apply sim_fresh; auto|]. intros _. apply sim_fresh; auto. discriminate.
    - split; [|discriminate]. apply (sim_keep last dirty s B B n n' _ HS); auto.
  Qed.

  (** one action *)
  Lemma sim_step c cs last dirty s B n : sim last dirty s B n -> disciplined last dirty (c :: cs) (B, n) ->
    let '(s', a) := hstep c s in let '((B', n'), a') := sstep c (B, n) in
    a = a' /\ exists last' dirty', sim last' dirty' s' B' n' /\ disciplined last' dirty' cs (B', n').
  Proof.
    intros HS Hd. pose proof HS as (HB & Hl & Hlt & y & HL & Hy).
    destruct c as [v|b v|b|d|x d k sh|x|x d]; cbn [hstep sstep disciplined] in Hd |- *.
    - split; [reflexivity|]. exists last, dirty. split; [|exact Hd]. rewrite HB.
      split; [reflexivity|]. split; [exact Hl|]. split; [intros l El; specialize (Hlt l El); rewrite app_length; lia|].
      exists y. split; [|exact Hy]. rewrite <- HL. unfold mload. cbn [hlive hnet harr]. destruct (hlive s) as [a|] eqn:Ea; [|reflexivity].
      destruct Hl as [Hl|Hl]; [|discriminate]. rewrite HB, app_nth1 by (apply Hlt; congruence). reflexivity.
    - split; [reflexivity|]. eexists; eexists. split; [|exact Hd]. rewrite HB.
      split; [reflexivity|]. split; [exact Hl|]. split; [intros l El; specialize (Hlt l El); rewrite set_nth_length; exact Hlt|].
      unfold mload. cbn [hlive hnet harr]. unfold mload in HL. destruct (hlive s) as [a|] eqn:Ea.
      + destruct Hl as [Hl|Hl]; [|discriminate]. subst last. pose proof (Hlt a eq_refl) as Ha.
        exists (VArr (nth a (set_nth b v B) [])). split.
        { change (with_y (VArr (nth a (set_nth b v B) [])) (with_y (VArr (nth a (harr s) [])) (hnet s)) = with_y (VArr (nth a (set_nth b v B) [])) n).
          rewrite HL. reflexivity. }
        intros Hdd. apply orb_false_iff in Hdd as (Hdd & Hab). apply Nat.eqb_neq in Hab. rewrite <- (Hy Hdd).
        assert (Hny : y = VArr (nth a B [])) by (rewrite <- HB; apply (f_equal m_y) in HL; symmetry; exact HL).
        rewrite Hny. f_equal. destruct (Nat.lt_ge_cases b (length B)) as [Hb|Hb].
        * rewrite nth_set_nth by exact Hb. destruct (Nat.eqb_spec a b); [contradiction|reflexivity].
        * f_equal. clear - Hb. revert b Hb. induction B as [|u B IH]; intros [|b] Hb; cbn in *; auto; [lia|]. f_equal. apply IH; lia.
      + exists y. split; [exact HL|]. intros Hdd. apply orb_false_iff in Hdd as (Hdd & _). exact (Hy Hdd).
    - unfold predict_m. rewrite HL, HB, predict_y. pose proof (predict_sets_y (nth b B []) n) as HY. pose proof (predict_keeps_y (nth b B []) n) as HK.
      destruct (net_predict (nth b B []) n) as [n' [[yn|yv]|e]]; cbn [fst snd keep_result] in *.
      + split; [reflexivity|]. exists None, false. split; [|exact Hd]. apply sim_fresh; [exact I|discriminate].
      + split; [reflexivity|]. exists (Some (length B)), false. split; [|exact Hd]. apply sim_fresh.
        * split; [reflexivity|]. rewrite app_nth2 by lia. rewrite Nat.sub_diag. exact (HY _ eq_refl).
        * intros l [= <-]. rewrite app_length. cbn [length]. lia.
      + split; [reflexivity|]. exists last, dirty. split; [|exact Hd].
        apply (sim_keep last dirty s B B n n' _ HS); auto; [rewrite HL; reflexivity|exact (HK e eq_refl)].
    - destruct (net_update (deref d B) n) as [n' r] eqn:EU. destruct Hd as (Hdd & Hd).
      unfold update_m. rewrite HL, HB, (Hy Hdd), with_y_same, EU. split; [reflexivity|]. exists last, dirty. split; [|exact Hd].
      pose proof (update_keeps_y (deref d B) n) as HU. rewrite EU in HU. cbn [fst] in HU.
      apply (sim_keep last dirty s B (keep_result r B) n n' n' HS); auto using keep_result_nth, keep_result_len.
      rewrite HL, (Hy Hdd), with_y_same, <- HU. symmetry; apply with_y_same.
    - unfold train_m. rewrite HL. destruct (train_y y x d k sh n) as (H1 & H2). pose proof (train_assigns x d k sh n) as HA.
      rewrite check_y, assigns_y, H1.
      set (c := match check_data x d n with Ok _ => _ | Err _ => false end) in *.
      destruct (net_train x d k sh n) as [n' r]. cbn [fst snd] in *. split; [reflexivity|].
      destruct (sim_loop last dirty s B n n' c _ HS eq_refl H2) as (S1 & S2). rewrite HL in S1, S2. cbn [with_y m_y] in S1, S2.
      destruct r as [[[|v vs] m]|e]; [exists last, dirty; auto| |exists last, dirty; auto].
      exists None, false. split; [apply S2, (HA v vs m eq_refl)|exact Hd].
    - unfold run_m. rewrite HL. destruct (run_y y x n) as (H1 & H2). pose proof (run_assigns x n) as HA.
      rewrite assigns_y, H1. set (c := assigns x n) in *.
      destruct (net_run x n) as [n' r]. cbn [fst snd] in *. split; [reflexivity|].
      destruct (sim_loop last dirty s B n n' c _ HS eq_refl H2) as (S1 & S2). rewrite HL in S1, S2. cbn [with_y m_y] in S1, S2.
      destruct r as [[|v vs]|e]; [exists last, dirty; auto| |exists last, dirty; auto].
      exists None, false. split; [apply S2, (HA v vs eq_refl)|exact Hd].
    - unfold test_m. rewrite HL. destruct (test_y y x d n) as (H1 & H2). pose proof (test_assigns x d n) as HA.
      rewrite check_y, assigns_y, H1. set (c := match check_data x d n with Ok _ => _ | Err _ => false end) in *.
      destruct (net_test x d n) as [n' r]. cbn [fst snd] in *. split; [reflexivity|].
      destruct (sim_loop last dirty s B n n' c _ HS eq_refl H2) as (S1 & S2). rewrite HL in S1, S2. cbn [with_y m_y] in S1, S2.
      destruct r as [[|v vs]|e]; [exists last, dirty; auto| |exists last, dirty; auto].
      exists None, false. split; [apply S2, (HA v vs eq_refl)|exact Hd].
  Qed.

  Lemma sim_all cs : forall last dirty s B n, sim last dirty s B n -> disciplined last dirty cs (B, n) ->
    snd (hrun cs s) = snd (srun cs (B, n)) /\ exists last' dirty', sim last' dirty' (fst (hrun cs s)) (fst (fst (srun cs (B, n)))) (snd (fst (srun cs (B, n)))).
  Proof.
    induction cs as [|c cs IH]; intros last dirty s B n HS Hd; [split; [reflexivity|exists last, dirty; exact HS]|].
    pose proof (sim_step c cs last dirty s B n HS Hd) as H. cbn [hrun srun].
    destruct (hstep c s) as [s' a]. destruct (sstep c (B, n)) as [[B' n'] a']. destruct H as (<- & last' & dirty' & HS' & Hd').
    destruct (IH last' dirty' s' B' n' HS' Hd') as (H1 & l2 & d2 & H2).
    destruct (hrun cs s') as [s2 l]. destruct (srun cs (B', n')) as [[B2 n2] l']. cbn [fst snd] in *. split; [congruence|]. exists l2, d2. exact H2.
  Qed.

  (** ** C82 *)
  (** Whatever the program does with its arrays - input vectors, targets, returned errors - every call answers as if it
      had been given and had returned copies, the network never changes an array of the program, and it ends with the
      same parameters: provided that no update comes while the array returned by the last predict is overwritten. *)
  Theorem C82_reuse_is_safe : forall (n : net) (cs : list act), disciplined None false cs ([], n) ->
    let real := hrun cs (mkMstate [] n None) in
    let expected := srun cs ([], n) in
    snd real = snd expected /\
    harr (fst real) = fst (fst expected) /\
    params (mload (fst real)) = params (snd (fst expected)).
  Proof.
    intros n cs Hd real expected. destruct (sim_all cs None false (mkMstate [] n None) [] n) as (H1 & l & d & HB & _ & _ & y & HL & _); auto.
    - apply sim_fresh; [exact I|discriminate].
    - split; [exact H1|]. split; [exact HB|]. unfold real. rewrite HL. reflexivity.
  Qed.

  (** in particular if no array returned by predict is ever overwritten; then the whole state is the expected one *)
  Lemma hands_off_disciplined cs : forall ret last B (n : net), (forall l, last = Some l -> In l ret) -> hands_off ret cs (B, n) ->
    disciplined last false cs (B, n).
  Proof.
    induction cs as [|c cs IH]; intros ret last B n Hl H; [exact I|]. cbn [disciplined hands_off] in *.
    destruct c as [v|b v|b|d|x d k sh|x|x d]; cbn [sstep] in *.
    - apply (IH ret); auto.
    - destruct H as (Hb & H). cbn [orb]. replace (match last with Some l => l =? b | None => false end) with false.
      + apply (IH ret); auto.
      + destruct last as [l|]; [|reflexivity]. symmetry. apply Nat.eqb_neq. intros ->. exact (Hb (Hl b eq_refl)).
    - destruct (net_predict (nth b B []) n) as [n' [[a|v]|e]].
      + apply (IH ret); auto. discriminate.
      + apply (IH (length B :: ret)); auto. intros l [= <-]. left; reflexivity.
      + apply (IH ret); auto.
    - destruct (net_update (deref d B) n) as [n' r]. split; [reflexivity|]. apply (IH ret); auto.
    - destruct (net_train x d k sh n) as [n' [[[|v vs] m]|e]]; apply (IH ret); auto; discriminate.
    - destruct (net_run x n) as [n' [[|v vs]|e]]; apply (IH ret); auto; discriminate.
    - destruct (net_test x d n) as [n' [[|v vs]|e]]; apply (IH ret); auto; discriminate.
  Qed.
  Theorem C82_hands_off : forall (n : net) (cs : list act), hands_off [] cs ([], n) ->
    snd (hrun cs (mkMstate [] n None)) = snd (srun cs ([], n)).
  Proof. intros n cs H. apply C82_reuse_is_safe. apply (hands_off_disciplined cs []); [discriminate|exact H]. Qed.

  (** one output: predict returns numbers, no condition is needed *)
  Lemma w1_predict x (n : net) : (exists w, m_w n = W1 w) ->
    (exists w, m_w (fst (net_predict x n)) = W1 w) /\ (forall v, snd (net_predict x n) <> Ok (VArr v)).
  Proof.
    intros (w & E). unfold net_predict. destruct (predict_layers (m_layers n) x) as [ls [h|e]]; [|split; [exists w; exact E|discriminate]].
    destruct (assign_tail (m_x n) (length (m_x n) - 1) h) as [xs|e]; [|split; [exists w; exact E|discriminate]].
    rewrite E. destruct (vdot w xs); (split; [exists w; reflexivity|discriminate]).
  Qed.
  Lemma one_output_disciplined sizes k cs : forall B n, net_reach sizes k 1 n -> disciplined None false cs (B, n).
  Proof.
    induction cs as [|c cs IH]; intros B n H; [exact I|]. cbn [disciplined].
    destruct c as [v|b v|b|d|x d ep sh|x|x d]; cbn [sstep].
    - apply IH; exact H.
    - apply IH; exact H.
    - pose proof (reach_mop _ _ _ n (MPredict (nth b B [])) H) as HN. cbn [mexec] in HN.
      destruct (w1_predict (nth b B []) n) as (_ & HV).
      { destruct (net_reach_ok _ _ _ _ H) as (_ & _ & _ & _ & _ & H6). destruct (m_w n) as [w|w]; [exists w; reflexivity|]. destruct H6 as (H6 & _). contradiction. }
      destruct (net_predict (nth b B []) n) as [n' [[a|v]|e]]; cbn [fst snd] in *; [apply IH; exact HN|exfalso; exact (HV v eq_refl)|apply IH; exact HN].
    - pose proof (reach_mop _ _ _ n (MUpdate (deref d B)) H) as HN. cbn [mexec] in HN.
      destruct (net_update (deref d B) n) as [n' r]. split; [reflexivity|]. apply IH; exact HN.
    - pose proof (reach_mop _ _ _ n (MTrain x d ep sh) H) as HN. cbn [mexec] in HN.
      destruct (net_train x d ep sh n) as [n' [[[|v vs] m]|e]]; apply IH; exact HN.
    - pose proof (reach_mop _ _ _ n (MRun x) H) as HN. cbn [mexec] in HN.
      destruct (net_run x n) as [n' [[|v vs]|e]]; apply IH; exact HN.
    - pose proof (reach_mop _ _ _ n (MTest x d) H) as HN. cbn [mexec] in HN.
      destruct (net_test x d n) as [n' [[|v vs]|e]]; apply IH; exact HN.
  Qed.
  Theorem C82_one_output : forall sizes n_input (n : net) (cs : list act), net_reach sizes n_input 1 n ->
    let real := hrun cs (mkMstate [] n None) in
    let expected := srun cs ([], n) in
    snd real = snd expected /\
    harr (fst real) = fst (fst expected) /\
    params (mload (fst real)) = params (snd (fst expected)).
  Proof. intros sizes k n cs H. apply C82_reuse_is_safe. apply (one_output_disciplined sizes k). exact H. Qed.

  (** ** Violation *)
  (** The array returned by predict is live: if the program overwrites it (to scale or round the outputs, say) and then
      calls update, the network learns from the overwritten values: the error is d minus those values, not d minus the
      output of the network. *)
  Theorem C82_written_output_is_used : forall sizes n_input outputs (n : net) (x v d : vec),
    net_reach sizes n_input outputs n -> outputs <> 1 -> length x = n_input -> length v = outputs -> length d = outputs ->
    exists y, forward n x = VArr y /\
    snd (hrun [ANew x; ANew d; APredict 0; AWrite 2 v; AUpdate (TArr 1)] (mkMstate [] n None)) =
      [ANone; ANone; AVal (Ok (VArr y)); ANone; AVal (Ok (VArr (map2 nsub d v)))] /\
    snd (srun [ANew x; ANew d; APredict 0; AWrite 2 v; AUpdate (TArr 1)] ([], n)) =
      [ANone; ANone; AVal (Ok (VArr y)); ANone; AVal (Ok (VArr (map2 nsub d y)))].
  Proof.
    intros sizes k o n x v d H Ho Hx Hv Hd. pose proof (net_reach_ok _ _ _ _ H) as HN.
    destruct (net_predict_ok sizes k o x n HN Hx) as (P1 & P2 & P3 & P4). pose proof (net_predict_inv _ _ _ x n HN) as HI.
    destruct (forward n x) as [a|y]; [destruct P3 as []; lia|]. destruct P3 as (_ & Hy). exists y. split; [reflexivity|].
    assert (HU : forall u, length u = o -> snd (net_update (VArr d) (with_y (VArr u) (fst (net_predict x n)))) = Ok (VArr (map2 nsub d u))).
    { intros u Hu. destruct (net_update_ok sizes k o (VArr d) (with_y (VArr u) (fst (net_predict x n)))) as (E & _).
      - exact HI.
      - destruct P2 as (R1 & R2). split; [exact R1|]. split; assumption.
      - split; assumption.
      - exact E. }
    split.
    - cbn [hrun hstep]. unfold predict_m. cbn [harr hnet hlive app nth mload].
      destruct (net_predict x n) as [n' r]. cbn [fst snd] in *. subst r. cbn [fst snd app length set_nth].
      unfold update_m. cbn [harr hnet hlive mload nth deref]. pose proof (HU v Hv) as HU1.
      destruct (net_update (VArr d) (with_y (VArr v) n')) as [n'' r]. cbn [snd] in HU1. subst r. reflexivity.
    - cbn [srun sstep app nth].
      destruct (net_predict x n) as [n' r]. cbn [fst snd] in *. subst r. cbn [keep_result app]. cbn [srun sstep set_nth deref nth].
      pose proof (HU y Hy) as HU1. rewrite <- P4, with_y_same in HU1.
      destruct (net_update (VArr d) n') as [n'' r]. cbn [snd] in HU1. subst r. reflexivity.
  Qed.
End C82.

(** ** The hypotheses are met *)
From Verif Require Import NumQ PropsRun.
Definition alias_net : net Q :=
  mkNet (1 # 2)%Q 2 2 (W2 [[1; 2; 1]; [0; 1; (-1)]]%Q) [1; 1; 1]%Q (VNum 0%Q)
    [mkLayer (1 # 2)%Q 2 [[0; 1; 1]; [1; 0; 1]]%Q [1; 1; 1]%Q [0; 0; 0]%Q Sigmoid].
(** a buffer for the inputs and one for the targets, both overwritten between the calls; the returned error and an old output
    are overwritten too, and the current output before a predict *)
Definition buffers : list (act (T := Q)) :=
  [ANew [1; 2]%Q; ANew [1; 0]%Q; APredict 0; AWrite 0 [9; 9]%Q; AUpdate (TArr 1); AWrite 1 [0; 3]%Q; AWrite 3 [7; 7]%Q;
   APredict 0; AWrite 2 [5; 5]%Q; AUpdate (TArr 1); AWrite 4 [6; 6]%Q; APredict 0; AUpdate (TArr 1); AWrite 6 [8; 8]%Q; ARun [[1; 1]; [2; 2]]%Q; AUpdate (TArr 0)].
Example C82_hypotheses : disciplined None false buffers ([], alias_net) /\
  ~ hands_off [] buffers ([], alias_net) /\
  hands_off [] (firstn 8 buffers) ([], alias_net) /\
  (exists n, net_reach (T := Q) [2] 2 2 n /\
     snd (hrun [ANew [1; 2]%Q; ANew [1; 0]%Q; APredict 0; AWrite 2 [5; 5]%Q; AUpdate (TArr 1)] (mkMstate [] n None)) <>
     snd (srun [ANew [1; 2]%Q; ANew [1; 0]%Q; APredict 0; AWrite 2 [5; 5]%Q; AUpdate (TArr 1)] ([], n))).
Proof.
  split; [|split; [|split]].
  - vm_compute. repeat split.
  - intros H. vm_compute in H. decompose [and] H. tauto.
  - vm_compute. repeat split; intros []; try discriminate; intuition discriminate.
  - pose (rng1 := fun (_ : Q) k => repeat 1%Q k). pose (rng := fun (_ : nat) (_ : Q) r c => repeat (repeat 1%Q c) r).
    eexists. split.
    + apply (reach_net [2] 2 2 rng1 rng Sigmoid (MuNum (1 # 2)%Q)).
      * split; [intros; apply repeat_length|]. intros i sg r c. split; [apply repeat_length|]. apply Forall_forall. intros u Hu.
        apply repeat_spec in Hu. subst u. apply repeat_length.
      * vm_compute. reflexivity.
    + vm_compute. discriminate.
Qed.
