(** Property C28: reuse of the caller's arrays. *)
From Coq Require Import QArith.
From Verif Require Import Py Num NumQ Numpy Filters Registry Spec StructProofs RunProofs Reach Steps Alias PropsRun.
Open Scope nat_scope.

Section Props.
  Context {T : Type} {NT : Num T}.
  Notation vec := (list T).
  Notation mat := (list (list T)).
  Notation obj := (obj T).

  (** ** Specification *)
  (** What a program that owns some input arrays can do: create an array, overwrite one in place, and call the
      filter with an array it owns.  Array number b of the program is at address 1 + b (0 are the weights). *)
  Inductive act : Type :=
  | ANew (v : vec)
  | AWrite (b : nat) (v : vec)
  | APredict (b : nat)
  | AAdapt (d : T) (b : nat)
  | ARun (d : vec) (x : mat).

  (** the real behaviour: references *)
  Definition hexec (c : act) (s : hstate (T := T)) : hstate :=
    match c with
    | ANew v => (mkHeap (hv (fst s) ++ [v]) (hm (fst s)), snd s)
    | AWrite b v => (mkHeap (set_nth (S b) v (hv (fst s))) (hm (fst s)), snd s)
    | APredict b => fst (predict_h (S b) s)
    | AAdapt d b => fst (adapt_h d (S b) s)
    | ARun d x => fst (run_h d x s)
    end.
  Definition houtcome (c : act) (s : hstate (T := T)) : result (outv (T := T)) :=
    match c with
    | ANew _ | AWrite _ _ => Ok VNone
    | APredict b => rmap VNum (snd (predict_h (S b) s))
    | AAdapt d b => rmap (fun _ => VNone) (snd (adapt_h d (S b) s))
    | ARun d x => rmap (fun '(y, e, a) => VRun y e (nth a (hm (fst (fst (run_h d x s)))) [])) (snd (run_h d x s))
    end.

  (** the expected behaviour: every call gets a snapshot of the values *)
  Definition sexec (c : act) (s : list vec * obj) : list vec * obj :=
    let '(B, o) := s in
    match c with
    | ANew v => (B ++ [v], o)
    | AWrite b v => (set_nth b v B, o)
    | APredict b => (B, exec (OpPredict (nth b B [])) o)
    | AAdapt d b => (B, exec (OpAdapt d (nth b B [])) o)
    | ARun d x => (B, exec (OpRun d x) o)
    end.
  Definition soutcome (c : act) (s : list vec * obj) : result (outv (T := T)) :=
    let '(B, o) := s in
    match c with
    | ANew _ | AWrite _ _ => Ok VNone
    | APredict b => outcome (OpPredict (nth b B [])) o
    | AAdapt d b => outcome (OpAdapt d (nth b B [])) o
    | ARun d x => outcome (OpRun d x) o
    end.

  Definition hexec_all (cs : list act) (s : hstate) : hstate := fold_left (fun s c => hexec c s) cs s.
  Definition sexec_all (cs : list act) (s : list vec * obj) : list vec * obj := fold_left (fun s c => sexec c s) cs s.
  Fixpoint houtcomes (cs : list act) (s : hstate) : list (result outv) :=
    match cs with [] => [] | c :: cs' => houtcome c s :: houtcomes cs' (hexec c s) end.
  Fixpoint soutcomes (cs : list act) (s : list vec * obj) : list (result outv) :=
    match cs with [] => [] | c :: cs' => soutcome c s :: soutcomes cs' (sexec c s) end.

  (** vectors of n numbers, only arrays that exist ([k] is the number of arrays so far) *)
  Fixpoint well_shaped (n k : nat) (cs : list act) : Prop :=
    match cs with
    | [] => True
    | ANew v :: cs' => length v = n /\ well_shaped n (S k) cs'
    | AWrite b v :: cs' => b < k /\ length v = n /\ well_shaped n k cs'
    | APredict b :: cs' => b < k /\ well_shaped n k cs'
    | AAdapt _ b :: cs' => b < k /\ well_shaped n k cs'
    | ARun _ x :: cs' => rows_of n x /\ well_shaped n k cs'
    end.

  (** the array given to the last adapt is not overwritten (until the next adapt or successful run) *)
  Fixpoint disciplined (last : option nat) (cs : list act) : Prop :=
    match cs with
    | [] => True
    | AWrite b _ :: cs' => last <> Some b /\ disciplined last cs'
    | AAdapt _ b :: cs' => disciplined (Some b) cs'
    | ARun d x :: cs' => disciplined (if (length d =? length x) && negb (length x =? 0) then None else last) cs'
    | _ :: cs' => disciplined last cs'
    end.

  (** ** Lemmas *)
  Lemma retains_kind (a b : ext T) : kind_eq a b = true -> retains a = retains b.
  Proof. destruct a, b; cbn; intros H; try discriminate; reflexivity. Qed.
  Lemma set_last_noop v (e : ext T) : retains e = false -> set_last_x v e = e.
  Proof. destruct e; cbn; intros H; try discriminate; reflexivity. Qed.
  Lemma set_last_set u v (e : ext T) : set_last_x u (set_last_x v e) = set_last_x u e.
  Proof. destruct e; reflexivity. Qed.
  Lemma retains_set v (e : ext T) : retains (set_last_x v e) = retains e.
  Proof. destruct e; reflexivity. Qed.

  Lemma adapt_keeps_x n (o o' : obj) d x : wf n o -> length x = n -> retains (o_ext o) = true ->
    adapt d x o = (o', Ok tt) -> set_last_x x (o_ext o') = o_ext o'.
  Proof.
    intros Hwf Hl Hr HA. destruct (o_ext o) eqn:E; try discriminate.
    - rewrite (adapt_GNGD n _ _ _ _ _ _ _ Hwf Hl E) in HA. injection HA as <-. reflexivity.
    - rewrite (adapt_Ang n _ _ _ _ _ _ _ _ _ Hwf Hl E) in HA. injection HA as <-. reflexivity.
    - rewrite (adapt_Benveniste n _ _ _ _ _ _ _ _ Hwf Hl E) in HA. injection HA as <-. reflexivity.
    - rewrite (adapt_Mathews n _ _ _ _ _ _ _ Hwf Hl E) in HA. injection HA as <-. reflexivity.
  Qed.

  (** the invariant of the simulation *)
  Definition sim (n : nat) (last : option nat) (s : hstate) (B : list vec) (o : obj) : Prop :=
    hv (fst s) = o_w o :: B /\ ho_w (snd s) = 0 /\ load s = o /\ wf n o /\ Forall (fun v => length v = n) B /\
    (forall a, ho_hist (snd s) = Some a -> a < length (hm (fst s))) /\
    (forall b, last = Some b -> b < length B) /\
    (retains (o_ext o) = true -> ho_last (snd s) = option_map S last).

  Lemma load_ext (s : hstate (T := T)) : retains (o_ext (load s)) = false -> o_ext (ho (snd s)) = o_ext (load s).
  Proof.
    destruct s as [h f]. cbn. destruct (ho_last f) as [a|]; [|reflexivity]. rewrite retains_set. intros H.
    symmetry; apply set_last_noop; exact H.
  Qed.

  (** [store] of a value state that differs from the old one only as a method does *)
  Lemma load_store (o' : obj) l s B :
    hv (fst s) = o_w (load s) :: B -> ho_w (snd s) = 0 ->
    o_hist o' = o_hist (load s) ->
    (match l with Some a => set_last_x (nth a (o_w o' :: B) []) (o_ext o') = o_ext o' | None => True end) ->
    load (store o' l s) = o' /\ hv (fst (store o' l s)) = o_w o' :: B.
  Proof.
    destruct s as [[hv0 hm0] [ho0 w0 hist0 last0]]. cbn [fst snd hv ho_w]. intros Hhv -> Hh Hl.
    cbn [load ho_w ho_hist ho_last hm hv ho nth] in Hhv, Hh. cbn [store].
    rewrite Hhv. cbn [set_nth fst hv]. split; [|reflexivity].
    cbn [load ho ho_w ho_hist ho_last hv hm]. destruct o' as [w' n' mu' hist' ext']. cbn [o_w o_n o_mu o_hist o_ext] in *.
    cbn [o_hist] in Hh. rewrite <- Hh. change (set_nth 0 w' (nth 0 hv0 [] :: B)) with (w' :: B). destruct l as [a|]; [rewrite Hl|]; reflexivity.
  Qed.

  Lemma load_store_same (s : hstate (T := T)) B o : hv (fst s) = o_w o :: B -> ho_w (snd s) = 0 -> load s = o ->
    load (store o (ho_last (snd s)) s) = o.
  Proof.
    intros Hhv Hw HL. apply (load_store o (ho_last (snd s)) s B); rewrite ?HL; auto.
    rewrite <- Hhv. destruct s as [h f]. cbn [fst snd load] in HL |- *. destruct (ho_last f) as [a|]; [|exact I].
    rewrite <- HL. cbn [o_ext]. apply set_last_set.
  Qed.

  Lemma nth_B (s : hstate) B (o : obj) b : hv (fst s) = o_w o :: B -> nth (S b) (hv (fst s)) [] = nth b B [].
  Proof. intros ->. reflexivity. Qed.
  Lemma nth_Forall n (B : list vec) b : Forall (fun v => length v = n) B -> b < length B -> length (nth b B []) = n.
  Proof. intros HF Hb. rewrite Forall_forall in HF. apply HF. apply nth_In; exact Hb. Qed.

  (** *** one action *)
  Lemma sim_predict n last s B o b : sim n last s B o -> b < length B ->
    houtcome (APredict b) s = soutcome (APredict b) (B, o) /\ sim n last (hexec (APredict b) s) B (fst (predict (nth b B []) o)).
  Proof.
    intros (Hhv & Hw & HL & Hwf & HB & Hh & Hlb & Hlast) Hb. cbn [houtcome soutcome hexec outcome]. unfold predict_h.
    rewrite (nth_B s B o b Hhv), HL.
    destruct (predict_ok n o (nth b B []) Hwf (nth_Forall _ _ _ HB Hb)) as (o' & y & E & Hwf' & Hw' & Hh' & Hf').
    rewrite E. cbn [fst snd]. split; [reflexivity|].
    assert (Hret : retains (o_ext o') = retains (o_ext o)) by (symmetry; apply retains_kind; apply Hf').
    destruct (load_store o' (ho_last (snd s)) s B) as (H1 & H2); rewrite ?HL; auto.
    { destruct (retains (o_ext o)) eqn:Er.
      - assert (o' = o) as ->.
        { rewrite predict_plain in E; [congruence|]. unfold is_OCNLMS. destruct (o_ext o); try discriminate; reflexivity. }
        rewrite <- Hhv. destruct s as [h f]. cbn [fst snd load] in HL |- *. destruct (ho_last f) as [a|]; [|exact I].
        rewrite <- HL. cbn [o_ext]. apply set_last_set.
      - destruct (ho_last (snd s)) as [a|]; [|exact I]. apply set_last_noop. rewrite Hret. reflexivity. }
    split; [exact H2|]. split; [destruct s as [h f]; exact Hw|]. split; [exact H1|]. split; [exact Hwf'|]. split; [exact HB|].
    split; [destruct s as [h f]; exact Hh|]. split; [exact Hlb|].
    rewrite Hret. intros Hr. rewrite <- (Hlast Hr). destruct s as [h f]; reflexivity.
  Qed.

  Lemma sim_adapt n last s B o d b : sim n last s B o -> b < length B ->
    houtcome (AAdapt d b) s = soutcome (AAdapt d b) (B, o) /\
    sim n (Some b) (hexec (AAdapt d b) s) B (fst (adapt d (nth b B []) o)).
  Proof.
    intros (Hhv & Hw & HL & Hwf & HB & Hh & Hlb & Hlast) Hb. cbn [houtcome soutcome hexec outcome]. unfold adapt_h.
    rewrite (nth_B s B o b Hhv), HL. pose proof (nth_Forall _ _ _ HB Hb) as Hlen.
    destruct (adapt_ok n o d (nth b B []) Hwf Hlen) as (o' & r & E & Hwf' & Hh' & Hf' & Hr).
    rewrite E. cbn [fst snd]. split; [reflexivity|].
    assert (Hret : retains (o_ext o') = retains (o_ext o)) by (symmetry; apply retains_kind; apply Hf').
    set (l := match r with Ok _ => if retains (o_ext o') then Some (S b) else ho_last (snd s) | Err _ => ho_last (snd s) end).
    assert (Hl1 : retains (o_ext o) = true -> l = Some (S b)).
    { intros Hr1. unfold l. rewrite Hret, Hr1. destruct Hr as [->|(ex & -> & Hs & _)]; [reflexivity|].
      unfold soft_exn in Hs. destruct (o_ext o); try discriminate; contradiction. }
    destruct (load_store o' l s B) as (H1 & H2); rewrite ?HL; auto.
    { destruct (retains (o_ext o)) eqn:Er.
      - rewrite (Hl1 eq_refl). cbn [nth]. destruct Hr as [->|(ex & -> & Hs & _)].
        + apply (adapt_keeps_x n o o' d); auto.
        + unfold soft_exn in Hs. destruct (o_ext o); try discriminate; contradiction.
      - destruct l as [a|]; [|exact I]. apply set_last_noop. rewrite Hret. reflexivity. }
    split; [exact H2|]. split; [destruct s as [h f]; exact Hw|]. split; [exact H1|]. split; [exact Hwf'|]. split; [exact HB|].
    split; [destruct s as [h f]; exact Hh|]. split; [intros b' [= <-]; exact Hb|].
    rewrite Hret. intros Hr1. cbn [option_map]; rewrite <- (Hl1 Hr1). destruct s as [h f]; reflexivity.
  Qed.

  Lemma sim_write n last s B o b v : sim n last s B o -> b < length B -> length v = n ->
    (retains (o_ext o) = false \/ last <> Some b) -> sim n last (hexec (AWrite b v) s) (set_nth b v B) o.
  Proof.
    intros (Hhv & Hw & HL & Hwf & HB & Hh & Hlb & Hlast) Hb Hv Hd. destruct s as [h f]. cbn [fst snd] in *. cbn [hexec fst snd].
    split; [cbn; rewrite Hhv; reflexivity|]. split; [exact Hw|]. split.
    - rewrite <- HL. cbn [load hv hm]. rewrite Hw, Hhv. cbn [set_nth nth]. f_equal.
      destruct (ho_last f) as [a|] eqn:El; [|reflexivity].
      destruct (retains (o_ext o)) eqn:Er.
      + destruct Hd as [Hd|Hd]; [discriminate|]. specialize (Hlast eq_refl). destruct last as [b'|]; [|discriminate].
        cbn in Hlast. injection Hlast as ->. cbn [nth]. rewrite nth_set_nth by exact Hb.
        replace (b' =? b) with false by (symmetry; apply Nat.eqb_neq; congruence). reflexivity.
      + pose proof (load_ext (h, f)) as HX. rewrite HL in HX. cbn [snd] in HX. rewrite (HX Er).
        rewrite !set_last_noop by exact Er. reflexivity.
    - split; [exact Hwf|]. split; [apply set_nth_Forall; auto|]. split; [exact Hh|]. split; [|exact Hlast].
      intros b' Hb'. rewrite set_nth_length. auto.
  Qed.

  Lemma sim_new n last s B o v : sim n last s B o -> length v = n -> sim n last (hexec (ANew v) s) (B ++ [v]) o.
  Proof.
    intros (Hhv & Hw & HL & Hwf & HB & Hh & Hlb & Hlast) Hv. destruct s as [h f]. cbn [fst snd] in *. cbn [hexec fst snd].
    split; [cbn; rewrite Hhv; reflexivity|]. split; [exact Hw|]. split.
    - rewrite <- HL. cbn [load hv hm]. rewrite Hw, Hhv. cbn [app nth]. f_equal.
      destruct (ho_last f) as [a|] eqn:El; [|reflexivity].
      destruct (retains (o_ext o)) eqn:Er.
      + specialize (Hlast eq_refl). destruct last as [b'|]; [|discriminate].
        cbn in Hlast. injection Hlast as ->. cbn [nth]. rewrite app_nth1 by (apply Hlb; reflexivity). reflexivity.
      + pose proof (load_ext (h, f)) as HX. rewrite HL in HX. cbn [snd] in HX. rewrite (HX Er).
        rewrite !set_last_noop by exact Er. reflexivity.
    - split; [exact Hwf|]. split; [apply Forall_app; auto|]. split; [exact Hh|]. split; [|exact Hlast].
      intros b' Hb'. rewrite app_length. specialize (Hlb b' Hb'). lia.
  Qed.

  Lemma sim_run n last s B o d x : sim n last s B o -> rows_of n x ->
    houtcome (ARun d x) s = soutcome (ARun d x) (B, o) /\
    sim n (if (length d =? length x) && negb (length x =? 0) then None else last) (hexec (ARun d x) s) B (fst (run d x o)).
  Proof.
    intros Hsim Hx. pose proof Hsim as (Hhv & Hw & HL & Hwf & HB & Hh & Hlb & Hlast).
    cbn [houtcome soutcome hexec outcome]. unfold run_h. rewrite HL.
    destruct x as [|x0 x].
    - assert (Hrun : exists ex, run d [] o = (o, Err ex)).
      { unfold run, raise. destruct (negb _); eauto. }
      destruct Hrun as (ex & Erun). rewrite Erun.
      cbn [length]. rewrite Nat.eqb_refl. cbn [negb]. rewrite andb_false_r.
      destruct s as [h f]. cbn [store snd fst rmap].
      split; [reflexivity|].
      assert (Hset : set_nth (ho_w f) (o_w o) (hv h) = hv h) by (cbn [fst snd] in *; rewrite Hw, Hhv; reflexivity).
      rewrite Hset. cbn [fst snd] in *. split; [exact Hhv|]. split; [exact Hw|]. split.
      { pose proof (load_store_same (h, f) B o Hhv Hw HL) as HQ. cbn [store snd] in HQ. rewrite Hset in HQ. exact HQ. }
      split; [exact Hwf|]. split; [exact HB|]. split; [exact Hh|]. split; [exact Hlb|exact Hlast].
    - assert (Hrect : rect (length x0) (x0 :: x) = true).
      { pose proof (Forall_inv Hx) as H0. cbv beta in H0. rewrite H0. apply rect_Forall. exact Hx. }
      rewrite Hrect. cbn [length negb Nat.eqb]. rewrite !andb_true_r.
      destruct (Nat.eqb_spec (length d) (S (length x))) as [Hl|Hl].
      + destruct (run_eq n o d (x0 :: x) Hwf Hx Hl) as (hist & Erun & Hhist); [discriminate|].
        pose proof (run_wf n d (x0 :: x) o Hwf Hx) as Hwf'. rewrite Erun in Hwf' |- *. cbn [fst snd] in Hwf' |- *.
        destruct (adapt_all_ok n d (x0 :: x) o Hwf Hx) as (o1 & r1 & Ea & Hwf1 & Hh1 & Hf1 & Hr1).
        rewrite Ea in *. cbn [fst snd] in *.
        set (o' := set_hist hist o1) in *.
        assert (Hret : retains (o_ext o') = retains (o_ext o)) by (symmetry; apply retains_kind; apply Hf1).
        destruct s as [h f]. cbn [store fst snd] in *.
        set (l := match _ with Ok _ => None | Err _ => ho_last f end).
        assert (Hl1 : retains (o_ext o) = true -> l = None).
        { intros Hr. unfold l. destruct Hr1 as [->|(ex & -> & Hs)]; [reflexivity|].
          unfold soft_exn in Hs. destruct (o_ext o); try discriminate; contradiction. }
        split.
        * destruct r1 as [[]|ex]; cbn [rmap]; [|reflexivity]. cbn [fst hm]. rewrite app_nth2 by lia. rewrite Nat.sub_diag. cbn [nth].
          change (o_hist o') with (Some hist). rewrite (Hhist eq_refl). reflexivity.
        * split; [cbn [fst hv]; rewrite Hw, Hhv; reflexivity|]. split; [exact Hw|]. split.
          { cbn [load fst snd ho ho_w ho_hist ho_last hv hm option_map]. rewrite Hw, Hhv.
            change (set_nth 0 (o_w o') (o_w o :: B)) with (o_w o' :: B). change (nth 0 (o_w o' :: B) []) with (o_w o').
            rewrite app_nth2 by lia. rewrite Nat.sub_diag. change (o_hist o') with (Some hist).
            assert (HE : (match l with Some a => set_last_x (nth a (o_w o' :: B) []) (o_ext o') | None => o_ext o' end) = o_ext o').
            { destruct l as [a|]; [|reflexivity]. apply set_last_noop. rewrite Hret. destruct (retains (o_ext o)); [|reflexivity].
              specialize (Hl1 eq_refl); discriminate. }
            rewrite HE. reflexivity. }
          split; [exact Hwf'|]. split; [exact HB|]. split; [cbn; intros a [= <-]; rewrite app_length; cbn; lia|].
          split; [discriminate|]. cbn [snd ho_last]. rewrite Hret. intros Hr. rewrite (Hl1 Hr). reflexivity.
      + rewrite run_bad_length by exact Hl. destruct s as [h f]. cbn [store snd fst rmap].
        split; [reflexivity|].
        assert (Hset : set_nth (ho_w f) (o_w o) (hv h) = hv h) by (cbn [fst snd] in *; rewrite Hw, Hhv; reflexivity).
        rewrite Hset. cbn [fst snd] in *. split; [exact Hhv|]. split; [exact Hw|]. split.
        { pose proof (load_store_same (h, f) B o Hhv Hw HL) as HQ. cbn [store snd] in HQ. rewrite Hset in HQ. exact HQ. }
        split; [exact Hwf|]. split; [exact HB|]. split; [exact Hh|]. split; [exact Hlb|exact Hlast].
  Qed.

  Lemma sim_alloc n (o : obj) : wf n o -> sim n None (alloc o) [] o.
  Proof.
    intros Hwf. unfold alloc. split; [reflexivity|]. split; [reflexivity|]. split.
    - destruct o as [w m mu hist e]. cbn. destruct hist; reflexivity.
    - split; [exact Hwf|]. split; [constructor|]. split; [|split; [discriminate|reflexivity]].
      cbn. destruct (o_hist o); intros a [= <-]; cbn; lia.
  Qed.

  Lemma sim_all n : forall cs last s B o, sim n last s B o -> well_shaped n (length B) cs ->
    (retains (o_ext o) = false \/ disciplined last cs) ->
    houtcomes cs s = soutcomes cs (B, o) /\
    exists last' B' o', sexec_all cs (B, o) = (B', o') /\ sim n last' (hexec_all cs s) B' o'.
  Proof.
    induction cs as [|c cs IH]; intros last s B o HS Hsh Hd.
    - split; [reflexivity|]. exists last, B, o. split; [reflexivity|exact HS].
    - pose proof HS as (_ & _ & _ & Hwf & HB & _).
      destruct c as [v|b v|b|d b|d x]; cbn [well_shaped disciplined] in Hsh, Hd; cbn [houtcomes soutcomes hexec_all sexec_all fold_left].
      + destruct Hsh as (Hv & Hsh). destruct (IH last (hexec (ANew v) s) (B ++ [v]) o) as (H1 & H2); auto.
        { apply sim_new; auto. } { rewrite app_length; cbn. rewrite Nat.add_1_r. exact Hsh. }
        split; [|exact H2]. cbn [sexec]. rewrite H1. reflexivity.
      + destruct Hsh as (Hb & Hv & Hsh). destruct (IH last (hexec (AWrite b v) s) (set_nth b v B) o) as (H1 & H2); auto.
        { apply sim_write; auto. destruct Hd as [Hd|(Hd & _)]; auto. } { rewrite set_nth_length. exact Hsh. }
        { destruct Hd as [Hd|(_ & Hd)]; auto. }
        split; [|exact H2]. cbn [sexec]. rewrite H1. reflexivity.
      + destruct Hsh as (Hb & Hsh). destruct (sim_predict n last s B o b HS Hb) as (H0 & HS').
        destruct (IH last _ B _ HS') as (H1 & H2); auto.
        { destruct Hd as [Hd|Hd]; [left|right; exact Hd].
          destruct (predict_ok n o (nth b B []) Hwf (nth_Forall _ _ _ HB Hb)) as (o' & y & E & _ & _ & _ & Hf').
          rewrite E. cbn [fst]. rewrite <- Hd. symmetry; apply retains_kind; apply Hf'. }
        split; [|exact H2]. rewrite H0. f_equal. exact H1.
      + destruct Hsh as (Hb & Hsh). destruct (sim_adapt n last s B o d b HS Hb) as (H0 & HS').
        destruct (IH _ _ B _ HS') as (H1 & H2); auto.
        { destruct Hd as [Hd|Hd]; [left|right; exact Hd].
          destruct (adapt_ok n o d (nth b B []) Hwf (nth_Forall _ _ _ HB Hb)) as (o' & r & E & _ & _ & Hf' & _).
          rewrite E. cbn [fst]. rewrite <- Hd. symmetry; apply retains_kind; apply Hf'. }
        split; [|exact H2]. rewrite H0. f_equal. exact H1.
      + destruct Hsh as (Hx & Hsh). destruct (sim_run n last s B o d x HS Hx) as (H0 & HS').
        destruct (IH _ _ B _ HS') as (H1 & H2); auto.
        { destruct Hd as [Hd|Hd]; [left|right; exact Hd].
          destruct (Nat.eq_dec (length d) (length x)) as [Hl|Hl]; [|rewrite run_bad_length by exact Hl; exact Hd].
          destruct x as [|x0 x]; [destruct d; [exact Hd|discriminate]|].
          destruct (run_fst n o d (x0 :: x) Hwf Hx Hl) as (h & ->); [discriminate|].
          destruct (adapt_all_ok n d (x0 :: x) o Hwf Hx) as (o1 & r1 & Ea & _ & _ & Hf1 & _). rewrite Ea. cbn [fst set_hist o_ext].
          rewrite <- Hd. symmetry; apply retains_kind; apply Hf1. }
        split; [|exact H2]. rewrite H0. f_equal. exact H1.
  Qed.

  (** ** C28 *)
  (** For the classes that do not keep the input vector, whatever the program does with its arrays between the calls:
      every call behaves as if it had been given a copy; the filter never changes the arrays of the program *)
  Theorem C28_reuse_is_safe : forall n (o : obj) (cs : list act), reachable n o -> retains (o_ext o) = false ->
    well_shaped n 0 cs ->
    houtcomes cs (alloc o) = soutcomes cs ([], o) /\
    load (hexec_all cs (alloc o)) = snd (sexec_all cs ([], o)) /\
    tl (hv (fst (hexec_all cs (alloc o)))) = fst (sexec_all cs ([], o)).
  Proof.
    intros n o cs Hr Hk Hs. apply reachable_wf in Hr.
    destruct (sim_all n cs None (alloc o) [] o (sim_alloc n o Hr) Hs (or_introl Hk)) as (H1 & last & B & o' & E & HS).
    rewrite E. destruct HS as (Hhv & _ & HL & _). split; [exact H1|]. split; [exact HL|]. rewrite Hhv. reflexivity.
  Qed.

  (** For GNGD and the VSLMS classes the same holds if the array given to the last adapt is left alone until the next
      one (a new array per sample, or two arrays used in turn, are enough) *)
  Theorem C28_disciplined_is_safe : forall n (o : obj) (cs : list act), reachable n o -> disciplined None cs ->
    well_shaped n 0 cs ->
    houtcomes cs (alloc o) = soutcomes cs ([], o) /\
    load (hexec_all cs (alloc o)) = snd (sexec_all cs ([], o)) /\
    tl (hv (fst (hexec_all cs (alloc o)))) = fst (sexec_all cs ([], o)).
  Proof.
    intros n o cs Hr Hk Hs. apply reachable_wf in Hr.
    destruct (sim_all n cs None (alloc o) [] o (sim_alloc n o Hr) Hs (or_intror Hk)) as (H1 & last & B & o' & E & HS).
    rewrite E. destruct HS as (Hhv & _ & HL & _). split; [exact H1|]. split; [exact HL|]. rewrite Hhv. reflexivity.
  Qed.

  (** A history array returned by run is never changed by anything that happens later *)
  Lemma hm_grows c s : exists more, hm (fst (hexec c s)) = hm (fst s) ++ more.
  Proof.
    destruct s as [h f]. destruct c as [v|b v|b|d b|d x]; cbn [hexec fst snd hm].
    - exists []; rewrite app_nil_r; reflexivity.
    - exists []; rewrite app_nil_r; reflexivity.
    - unfold predict_h. destruct (predict _ _). exists []; rewrite app_nil_r; reflexivity.
    - unfold adapt_h. destruct (adapt _ _ _). exists []; rewrite app_nil_r; reflexivity.
    - unfold run_h. destruct (run _ _ _) as [o' r]. cbn [store snd]. destruct x as [|x0 x]; [exists []; rewrite app_nil_r; reflexivity|].
      destruct (_ && _); [eexists; reflexivity|exists []; rewrite app_nil_r; reflexivity].
  Qed.
  Theorem C28_returned_history_stable : forall d x (s : hstate) y e a (cs : list act), x <> [] ->
    snd (run_h d x s) = Ok (y, e, a) ->
    nth a (hm (fst (hexec_all cs (fst (run_h d x s))))) [] = nth a (hm (fst (fst (run_h d x s)))) [].
  Proof.
    intros d x s y e a cs Hne HR.
    assert (Ha : a < length (hm (fst (fst (run_h d x s))))).
    { revert HR. unfold run_h. destruct (run d x (load s)) as [o' r] eqn:ER. destruct s as [h f]. cbn [store snd].
      destruct x as [|x0 x]; [contradiction|]. destruct (_ && _) eqn:EC.
      - destruct r as [[[y' e'] w']|]; cbn [fst snd rmap hm]; [|discriminate]. intros [= _ _ <-]. rewrite app_length. cbn; lia.
      - intros HR. exfalso. revert HR ER. destruct r as [[[y1 e1] w1]|]; cbn [snd rmap]; [|discriminate]. intros _.
        unfold run, bind, modify, raise. apply andb_false_iff in EC as [EC|EC].
        + rewrite EC. cbn [negb]. discriminate.
        + destruct (negb _); [discriminate|]. rewrite EC. cbn [negb]. discriminate. }
    revert Ha. generalize (fst (run_h d x s)) as s1. clear. induction cs as [|c cs IH]; intros s1 Ha; [reflexivity|].
    cbn [hexec_all fold_left]. destruct (hm_grows c s1) as (more & E). etransitivity; [apply IH; rewrite E, app_length; lia|].
    rewrite E. apply app_nth1. exact Ha.
  Qed.

  (** f.w, on the other hand, is one and the same array for the life of the filter, updated in place: a reference
      obtained at any time shows the current weights, not those of that time *)
  Theorem C28_weights_array_is_live : forall (s : hstate) (cs : list act),
    ho_w (snd (hexec_all cs s)) = ho_w (snd s) /\
    nth (ho_w (snd s)) (hv (fst (hexec_all cs s))) [] = o_w (load (hexec_all cs s)).
  Proof.
    intros s cs. assert (H : ho_w (snd (hexec_all cs s)) = ho_w (snd s)).
    { revert s; induction cs as [|c cs IH]; intros s; [reflexivity|]. cbn [hexec_all fold_left]. etransitivity; [apply IH|].
      destruct s as [h f]. destruct c as [v|b v|b|d b|d x]; cbn [hexec fst snd]; try reflexivity.
      - unfold predict_h. destruct (predict _ _). reflexivity.
      - unfold adapt_h. destruct (adapt _ _ _). reflexivity.
      - unfold run_h. destruct (run _ _ _) as [o' r]. cbn [store snd]. destruct x as [|x0 x]; [reflexivity|].
        destruct (_ && _); reflexivity. }
    split; [exact H|]. rewrite <- H. destruct (hexec_all cs s) as [h f]. reflexivity.
  Qed.
End Props.

(** ** Violations: one buffer for all samples *)
Definition reuse_script : list (act (T := Q)) :=
  [ANew [1; 2]%Q; AAdapt 1%Q 0; AWrite 0 [2; (-1)]%Q; AAdapt 3%Q 0; AWrite 0 [1; 1]%Q; AAdapt 1%Q 0; APredict 0].

Theorem C28_reuse_refuted : forall k, In k [KGNGD; KAng; KBenveniste; KMathews] ->
  exists (o : obj Q), new_filter rng0 k (kwq 2 (1 # 2) [0; 0]%Q None None) = Ok o /\ reachable 2 o /\
    well_shaped 2 0 reuse_script /\
    houtcomes reuse_script (alloc o) <> soutcomes reuse_script ([], o).
Proof.
  intros k Hk.
  assert (HR : forall o, new_filter rng0 k (kwq 2 (1 # 2) [0; 0]%Q None None) = Ok o -> reachable 2 o).
  { intros o. apply (mk_reachable k (1 # 2) [0; 0]%Q None None); discriminate. }
  assert (HE : exists o, new_filter rng0 k (kwq 2 (1 # 2) [0; 0]%Q None None) = Ok o /\
    houtcomes reuse_script (alloc o) <> soutcomes reuse_script ([], o)).
  { cbn [In] in Hk. destruct Hk as [<-|[<-|[<-|[<-|[]]]]];
      (eexists; split; [vm_compute; reflexivity|]; vm_compute; discriminate). }
  destruct HE as (o & E & Hd). exists o. split; [exact E|]. split; [apply HR; exact E|]. split; [|exact Hd].
  cbn. repeat split; lia.
Qed.

(** two buffers used in turn satisfy the discipline; the script is not trivial *)
Definition turn_script : list (act (T := Q)) :=
  [ANew [1; 2]%Q; ANew [2; 3]%Q; AAdapt 1%Q 0; AAdapt 3%Q 1; AWrite 0 [1; 1]%Q; APredict 0; AAdapt 1%Q 0; AWrite 1 [5; 5]%Q;
   ARun [1; 2]%Q [[1; 0]; [0; 1]]%Q; AWrite 0 [0; 0]%Q; APredict 0].
Example C28_hypotheses : disciplined None turn_script /\ well_shaped 2 0 turn_script /\ well_shaped 2 0 reuse_script /\
  retains (o_ext q_nlms) = false.
Proof.
  split; [cbn; repeat split; discriminate|]. split; [repeat split; cbn; try lia; repeat constructor|]. split; [repeat split; cbn; lia|reflexivity].
Qed.
