(** C62: what the novelty detectors know at index k.  Statements for every arithmetic ([Num T] without laws). *)
From Coq Require Import QArith.
From Verif Require Import Py Num NumQ Numpy Filters Registry Spec StructProofs RunProofs Reach KeepProofs PropsRun Detection.
Open Scope nat_scope.

Section Lat.
  Context {T : Type} {NT : Num T}.
  Notation vec := (list T).
  Notation mat := (list (list T)).
  Notation obj := (obj T).

  (** the first j values of a learning entropy result *)
  Definition le_first (j : nat) (r : le_out T) : le_out T :=
    match r with LeMatrix A => LeMatrix (firstn j A) | LeSeries v => LeSeries (firstn j v) end.

  (** two records of data that agree on the samples 0 .. k-1 *)
  Definition agree_before (k : nat) (d d' : vec) (x x' : mat) : Prop :=
    firstn k d = firstn k d' /\ firstn k x = firstn k x'.

  (** ** lists *)
  Lemma firstn_map2 {A B C} (f : A -> B -> C) j : forall u v, firstn j (map2 f u v) = map2 f (firstn j u) (firstn j v).
  Proof. induction j as [|j IH]; intros [|a u] [|b v]; cbn; auto. f_equal; auto. Qed.
  Lemma map2_len {A B C} (f : A -> B -> C) : forall u v, length (map2 f u v) = Nat.min (length u) (length v).
  Proof. induction u as [|a u IH]; intros [|b v]; cbn; auto. Qed.
  Lemma map2_short {A B C} (f : A -> B -> C) : forall u v k, length u <= k -> map2 f u (firstn k v) = map2 f u v.
  Proof.
    induction u as [|a u IH]; intros [|b v] k H; cbn in *; auto; [destruct k; auto|].
    destruct k as [|k]; [lia|]. cbn. f_equal. apply IH; lia.
  Qed.
  Lemma tl_firstn {A} j (l : list A) : tl (firstn j l) = firstn (j - 1) (tl l).
  Proof. destruct j, l; cbn; auto; [destruct (j - 0); auto|]. rewrite Nat.sub_0_r; auto. Qed.
  Lemma nth_first {A} (l : list A) k j dflt : j < k -> nth j (firstn k l) dflt = nth j l dflt.
  Proof. revert k j; induction l as [|a l IH]; intros [|k] [|j] H; cbn; auto; try lia. apply IH; lia. Qed.
  Lemma slice_first {A} (l : list A) j a b : b <= j -> slice (firstn j l) a b = slice l a b.
  Proof.
    intros H. unfold slice. rewrite skipn_firstn_comm, firstn_firstn. f_equal. lia.
  Qed.
  Lemma firstn_seq j : forall s n, firstn j (seq s n) = seq s (Nat.min j n).
  Proof. induction j as [|j IH]; intros s [|n]; cbn; auto. f_equal; apply IH. Qed.
  Lemma firstn_ext {A} (dflt : A) k (u v : list A) : k <= length u -> k <= length v ->
    (forall i, i < k -> nth i u dflt = nth i v dflt) -> firstn k u = firstn k v.
  Proof.
    revert u v; induction k as [|k IH]; intros [|a u] [|b v] Hu Hv H; cbn in *; auto; try lia.
    f_equal; [apply (H 0); lia|]. apply IH; try lia. intros i Hi. apply (H (S i)); lia.
  Qed.

  (** ** differences *)
  Lemma diff1_first j (A : mat) : diff1 (firstn j A) = firstn (j - 1) (diff1 A).
  Proof.
    unfold diff1. rewrite firstn_map2, tl_firstn.
    replace (firstn (j - 1) A) with (firstn (j - 1) (firstn j A)) by (rewrite firstn_firstn; f_equal; lia).
    symmetry. apply map2_short. rewrite firstn_length. lia.
  Qed.
  Lemma diff1_len (A : mat) : length (diff1 A) = length A - 1.
  Proof. unfold diff1. rewrite map2_len. destruct A; cbn; lia. Qed.
  Lemma diffn_first o : forall j (A : mat), diffn o (firstn j A) = firstn (j - o) (diffn o A).
  Proof.
    induction o as [|o IH]; intros j A; cbn [diffn]; [rewrite Nat.sub_0_r; auto|].
    rewrite IH, diff1_first. f_equal. lia.
  Qed.
  Lemma diffn_len o (A : mat) : length (diffn o A) = length A - o.
  Proof. induction o as [|o IH]; cbn [diffn]; [lia|]. rewrite diff1_len, IH. lia. Qed.

  Lemma le_dw_first o j (w : mat) : le_dw o (firstn j w) = firstn j (le_dw o w).
  Proof.
    unfold le_dw, mabs. rewrite diffn_first, firstn_app, firstn_firstn, firstn_firstn, Nat.min_comm, firstn_length, <- firstn_map.
    f_equal. destruct (Nat.le_gt_cases o (length w)) as [H|H].
    - rewrite Nat.min_l by auto. reflexivity.
    - assert (E : diffn o w = []) by (apply length_zero_iff_nil; rewrite diffn_len; lia).
      rewrite E. cbn [map]. rewrite !firstn_nil. reflexivity.
  Qed.
  Lemma le_dw_len o (w : mat) : length (le_dw o w) = length w.
  Proof. unfold le_dw, mabs. rewrite app_length, map_length, diffn_len, firstn_length. lia. Qed.

  (** ** Learning entropy *)
  Lemma le_direct_first c m j (dw : mat) : le_direct c m (firstn j dw) = firstn j (le_direct c m dw).
  Proof.
    unfold le_direct. rewrite firstn_map, firstn_seq, firstn_length. apply map_ext_in. intros k Hk%in_seq.
    unfold le_awd, le_swd, le_window. rewrite nth_first, slice_first by lia. reflexivity.
  Qed.
  Lemma le_multiscale_first c m j (dw : mat) al : le_multiscale c m (firstn j dw) al = firstn j (le_multiscale c m dw al).
  Proof.
    unfold le_multiscale. rewrite firstn_map, firstn_seq, firstn_length. apply map_ext_in. intros k Hk%in_seq.
    unfold le_awd, le_window. rewrite nth_first, slice_first by lia. reflexivity.
  Qed.

  (** The learning entropy of the first j rows of a weight record consists of the first j values of
      the learning entropy of the whole record: it can be computed while the data arrive, and values
      once computed are never revised. *)
  Theorem C62_LE_online : forall c (w : mat) m order alpha j,
    learning_entropy c (firstn j w) m order alpha = rmap (le_first j) (learning_entropy c w m order alpha).
  Proof.
    intros c w m order alpha j. unfold learning_entropy. destruct (order <? 0)%Z; auto.
    rewrite le_dw_first. destruct (not_alpha alpha) as [[|]|x]; cbn [rmap le_first]; auto.
    - rewrite le_direct_first. reflexivity.
    - destruct alpha; cbn [rmap le_first]; auto; rewrite le_multiscale_first; reflexivity.
  Qed.

  (** ** ELBND *)
  Lemma elbnd_dw_first c j (w : mat) : j < length w -> firstn j (elbnd_dw c (firstn (S j) w)) = firstn j (elbnd_dw c w).
  Proof.
    intros H. unfold elbnd_dw, mabs. rewrite !firstn_app, !map_length, diff1_first, diff1_len, firstn_length, diff1_len.
    replace (j - Nat.min (S j - 1) (length w - 1)) with 0 by lia. replace (j - (length w - 1)) with 0 by lia.
    cbn [firstn]. rewrite !app_nil_r, firstn_map, firstn_map, firstn_firstn. f_equal. f_equal. lia.
  Qed.
  Lemma elbnd_dw_len c (w : mat) : length (elbnd_dw c w) = length w.
  Proof. unfold elbnd_dw, mabs. rewrite app_length, map_length, diff1_len. destruct w; cbn; lia. Qed.
  Lemma sequence_len {A} (l : list (result A)) r : sequence l = Ok r -> length r = length l.
  Proof.
    revert r; induction l as [|a l IH]; intros r H; cbn in H; [injection H as <-; auto|].
    destruct a; [|discriminate]. cbn in H. destruct (sequence l); [|discriminate]. injection H as <-. cbn. f_equal; auto.
  Qed.
  Lemma sequence_firstn {A} (l : list (result A)) r j : sequence l = Ok r -> sequence (firstn j l) = Ok (firstn j r).
  Proof.
    revert r j; induction l as [|a l IH]; intros r [|j] H; cbn in *; auto; [injection H as <-; auto|].
    destruct a; [|discriminate]. cbn in *. destruct (sequence l) as [r'|]; [|discriminate].
    injection H as <-. rewrite (IH r' j) by auto. reflexivity.
  Qed.
  Lemma sequence_firstn_eq {A} (l l' : list (result A)) r r' j : sequence l = Ok r -> sequence l' = Ok r' ->
    firstn j l = firstn j l' -> firstn j r = firstn j r'.
  Proof.
    intros H H' E. apply (sequence_firstn l r j) in H. apply (sequence_firstn l' r' j) in H'. rewrite E in H. congruence.
  Qed.

  (** The ELBND values 0 .. j-1 need the weights up to row j and the errors up to j-1: they do not
      depend on anything that comes later. *)
  Theorem C62_ELBND_online : forall c (w w' : mat) (e e' : vec) f r r' j,
    length e = length w -> length e' = length w' -> j < length w -> j < length w' ->
    firstn (S j) w = firstn (S j) w' -> firstn j e = firstn j e' ->
    ELBND c w e f = Ok r -> ELBND c w' e' f = Ok r' -> firstn j r = firstn j r'.
  Proof.
    intros c w w' e e' f r r' j He He' Hj Hj' Hw Hee H H'. unfold ELBND in *.
    destruct (negb _); [discriminate|]. unfold bc in *. rewrite elbnd_dw_len in H, H'.
    rewrite (proj2 (Nat.eqb_eq _ _) (eq_sym He)) in H. rewrite (proj2 (Nat.eqb_eq _ _) (eq_sym He')) in H'. cbn [rbind] in *.
    set (B := map2 _ (elbnd_dw c w) e) in *. set (B' := map2 _ (elbnd_dw c w') e') in *.
    assert (EB : firstn j B = firstn j B').
    { unfold B, B'. rewrite !firstn_map2, Hee, <- (elbnd_dw_first c j w), <- (elbnd_dw_first c j w'), Hw by auto. reflexivity. }
    destruct (String.eqb f "max").
    - eapply sequence_firstn_eq; eauto. rewrite !firstn_map, EB. reflexivity.
    - injection H as <-. injection H' as <-. rewrite !firstn_map, EB. reflexivity.
  Qed.

  (** ** ESE *)
  Section Ese.
    Variable sort : vec -> vec.
    Variable fit : vec -> T -> result (T * T * T).
    Variable cdf : T -> T -> T -> T -> T.
    Lemma ese_dw_first j (w : mat) : ese_dw (firstn j w) = firstn j (ese_dw w).
    Proof. exact (le_dw_first 1 j w). Qed.
    Lemma column_first i j (A : mat) : column i (firstn j A) = firstn j (column i A).
    Proof. unfold column. rewrite firstn_map. reflexivity. Qed.
    Theorem C62_ESE_online : forall c (w : mat) window method r j, window <= j ->
      ESE sort fit cdf c w window method = Ok r -> ESE sort fit cdf c (firstn j w) window method = Ok (firstn j r).
    Proof.
      intros c w window method r j Hj H. unfold ESE in *. rewrite ese_dw_first.
      assert (Hl : length (ese_dw w) = length w) by exact (le_dw_len 1 w).
      rewrite firstn_length, Hl in *.
      destruct (Nat.ltb_spec (length w) window); [discriminate|]. destruct (Nat.ltb_spec (Nat.min j (length w)) window); [lia|].
      set (rows := map _ (seq window (length w - window))) in H.
      destruct (sequence rows) as [h|] eqn:Es; [|discriminate]. cbn [rmap] in H. injection H as <-.
      assert (Hz : length (zeros (NT := NT) window) = window) by (unfold zeros; apply repeat_length).
      rewrite firstn_app, Hz. rewrite (firstn_all2 (n := j) (zeros window)) by (rewrite Hz; exact Hj).
      pose proof (sequence_firstn _ _ (j - window) Es) as E2.
      rewrite firstn_map.
      assert (Er : map (fun i => sequence (map (fun jj => ese_cell sort fit cdf (column jj (firstn j (ese_dw w))) window i method) (seq 0 c)))
                       (seq window (Nat.min j (length w) - window)) = firstn (j - window) rows).
      { unfold rows. rewrite firstn_map, firstn_seq. replace (Nat.min (j - window) (length w - window)) with (Nat.min j (length w) - window) by lia.
        apply map_ext_in. intros i Hi%in_seq. f_equal. apply map_ext. intros jj. unfold ese_cell.
        rewrite column_first, nth_first, slice_first by lia. reflexivity. }
      rewrite Er, E2. reflexivity.
    Qed.
  End Ese.

  (** ** Detectors fed by a filter *)
  Lemma history_prefix n (o o1 o2 : obj) d d' x x' y e w y' e' w' k :
    reachable n o -> rows_of n x -> rows_of n x' -> length d = length x -> length d' = length x' ->
    run d x o = (o1, Ok (y, e, w)) -> run d' x' o = (o2, Ok (y', e', w')) ->
    agree_before k d d' x x' -> k < length x -> k < length x' -> firstn (S k) w = firstn (S k) w'.
  Proof.
    intros Hr Hx Hx' Hl Hl' E E' (Hd & Hxx) Hk Hk'.
    destruct (C02_run_arrays n o o1 d x y e w Hr Hx Hl E) as (_ & _ & H).
    destruct (C02_run_arrays n o o2 d' x' y' e' w' Hr Hx' Hl' E') as (_ & _ & H').
    assert (Hlw : length w = length x /\ length w' = length x').
    { assert (Hne : x <> []) by (intros ->; cbn in Hk; lia). assert (Hne' : x' <> []) by (intros ->; cbn in Hk'; lia).
      destruct (C07_run_total n o d x Hr Hx Hl Hne) as [(y1 & e1 & w1 & F & _ & _ & Hw & _)|(ex & F & _)]; rewrite E in F; [|discriminate].
      destruct (C07_run_total n o d' x' Hr Hx' Hl' Hne') as [(y2 & e2 & w2 & F' & _ & _ & Hw' & _)|(ex & F' & _)]; rewrite E' in F'; [|discriminate].
      injection F as <- <- <-. injection F' as <- <- <-. split; congruence. }
    apply (firstn_ext []); try lia. intros i Hi.
    destruct (H i ltac:(lia)) as (-> & _). destruct (H' i ltac:(lia)) as (-> & _). unfold state_after.
    assert (Hsub : forall A (l l' : list A), firstn k l = firstn k l' -> firstn i l = firstn i l').
    { intros A l l' Hll. apply (f_equal (firstn i)) in Hll. rewrite !firstn_firstn, Nat.min_l in Hll by lia. exact Hll. }
    rewrite (Hsub _ d d' Hd), (Hsub _ x x' Hxx). reflexivity.
  Qed.

  (** Learning entropy is one sample late: the values 0 .. k of two runs of the same filter agree as
      soon as the samples 0 .. k-1 agree; whatever happens in sample k is visible at k+1 at the
      earliest. *)
  Theorem C62_LE_one_late : forall n (o o1 o2 : obj) d d' x x' y e w y' e' w' k m order alpha,
    reachable n o -> rows_of n x -> rows_of n x' -> length d = length x -> length d' = length x' ->
    run d x o = (o1, Ok (y, e, w)) -> run d' x' o = (o2, Ok (y', e', w')) ->
    agree_before k d d' x x' -> k < length x -> k < length x' ->
    rmap (le_first (S k)) (learning_entropy n w m order alpha) = rmap (le_first (S k)) (learning_entropy n w' m order alpha).
  Proof.
    intros n o o1 o2 d d' x x' y e w y' e' w' k m order alpha Hr Hx Hx' Hl Hl' E E' Ha Hk Hk'.
    rewrite <- !C62_LE_online. f_equal. apply (history_prefix n o o1 o2 d d' x x' y e w y' e' w' k); auto.
  Qed.

  (** The same holds for ESE. *)
  Theorem C62_ESE_one_late : forall sort fit cdf n (o o1 o2 : obj) d d' x x' y e w y' e' w' k window method r r',
    reachable n o -> rows_of n x -> rows_of n x' -> length d = length x -> length d' = length x' ->
    run d x o = (o1, Ok (y, e, w)) -> run d' x' o = (o2, Ok (y', e', w')) ->
    agree_before k d d' x x' -> k < length x -> k < length x' ->
    ESE sort fit cdf n w window method = Ok r -> ESE sort fit cdf n w' window method = Ok r' ->
    firstn (S k) r = firstn (S k) r'.
  Proof.
    intros sort fit cdf n o o1 o2 d d' x x' y e w y' e' w' k window method r r' Hr Hx Hx' Hl Hl' E E' Ha Hk Hk' F F'.
    destruct (Nat.le_gt_cases window (S k)) as [Hw|Hw].
    - pose proof (C62_ESE_online sort fit cdf n w window method r (S k) Hw F) as G.
      pose proof (C62_ESE_online sort fit cdf n w' window method r' (S k) Hw F') as G'.
      rewrite (history_prefix n o o1 o2 d d' x x' y e w y' e' w' k) in G; auto. congruence.
    - assert (Hz : forall ww rr, ESE sort fit cdf n ww window method = Ok rr -> exists t, rr = zeros window ++ t).
      { intros ww rr G. unfold ESE in G. destruct (_ <? _); [discriminate|]. destruct (sequence _); [|discriminate].
        injection G as <-. eauto. }
      destruct (Hz _ _ F) as (t & ->). destruct (Hz _ _ F') as (t' & ->).
      rewrite !firstn_app. unfold zeros. rewrite repeat_length. replace (S k - window) with 0 by lia. reflexivity.
  Qed.

  (** ELBND is prompt: the values 0 .. k need the samples 0 .. k and one more sample (of any content)
      after them. *)
  Theorem C62_ELBND_prompt : forall n (o o1 o2 : obj) d d' x x' y e w y' e' w' k f r r',
    reachable n o -> rows_of n x -> rows_of n x' -> length d = length x -> length d' = length x' ->
    run d x o = (o1, Ok (y, e, w)) -> run d' x' o = (o2, Ok (y', e', w')) ->
    agree_before (S k) d d' x x' -> S k < length x -> S k < length x' ->
    ELBND n w e f = Ok r -> ELBND n w' e' f = Ok r' -> firstn (S k) r = firstn (S k) r'.
  Proof.
    intros n o o1 o2 d d' x x' y e w y' e' w' k f r r' Hr Hx Hx' Hl Hl' E E' Ha Hk Hk' F F'.
    pose proof (history_prefix n o o1 o2 d d' x x' y e w y' e' w' (S k) Hr Hx Hx' Hl Hl' E E' Ha Hk Hk') as Hw.
    destruct Ha as (Hd & Hxx).
    assert (Hsub : forall A (l l' : list A), firstn (S k) l = firstn (S k) l' -> firstn k l = firstn k l').
    { intros A l l' Hll. apply (f_equal (firstn k)) in Hll. rewrite !firstn_firstn, Nat.min_l in Hll by lia. exact Hll. }
    destruct (C04_causality n o o1 o2 d d' x x' k y e w y' e' w' Hr Hx Hx' E E' ltac:(lia) ltac:(lia) (Hsub _ _ _ Hd) Hxx) as (_ & _ & _ & He).
    assert (Hlen : (length e = length x /\ length w = length x) /\ length e' = length x' /\ length w' = length x').
    { assert (Hne : x <> []) by (intros ->; cbn in Hk; lia). assert (Hne' : x' <> []) by (intros ->; cbn in Hk'; lia).
      destruct (C07_run_total n o d x Hr Hx Hl Hne) as [(y1 & e1 & w1 & G & _ & ? & ? & _)|(ex & G & _)]; rewrite E in G; [|discriminate].
      destruct (C07_run_total n o d' x' Hr Hx' Hl' Hne') as [(y2 & e2 & w2 & G' & _ & ? & ? & _)|(ex & G' & _)]; rewrite E' in G'; [|discriminate].
      injection G as <- <- <-. injection G' as <- <- <-. repeat split; congruence. }
    destruct Hlen as ((? & ?) & ? & ?).
    apply (C62_ELBND_online n w w' e e' f r r' (S k)); auto; try lia.
  Qed.
End Lat.

(** A case: NLMS on two inputs; the second record has another target at sample 2 (index 2) only.
    Learning entropy (multiscale) differs first at index 3, ELBND at index 2. *)
Definition lat_x : list (list Q) := [[1; 0]; [0; 1]; [1; 1]; [2; 1]; [1; 2]]%Q.
Definition lat_d : list Q := [1; 1; 1; 1; 1]%Q.
Definition lat_d' : list Q := [1; 1; 9; 1; 1]%Q.
Theorem C62_sharp : exists (o1 o2 : obj Q) y e w y' e' w' le le' el el',
  reachable 2 q_nlms /\ rows_of 2 lat_x /\ agree_before 2 lat_d lat_d' lat_x lat_x /\
  run lat_d lat_x q_nlms = (o1, Ok (y, e, w)) /\ run lat_d' lat_x q_nlms = (o2, Ok (y', e', w')) /\
  learning_entropy 2 w 1 1 (AlphaList [3%Q]) = Ok (LeSeries le) /\
  learning_entropy 2 w' 1 1 (AlphaList [3%Q]) = Ok (LeSeries le') /\
  ELBND 2 w e "max" = Ok el /\ ELBND 2 w' e' "max" = Ok el' /\
  firstn 3 le = firstn 3 le' /\ nth 3 le 0%Q <> nth 3 le' 0%Q /\ nth 2 el 0%Q <> nth 2 el' 0%Q.
Proof.
  do 12 eexists. split; [exact q_nlms_reachable|]. split; [repeat constructor|]. split; [split; reflexivity|].
  split; [vm_compute; reflexivity|]. split; [vm_compute; reflexivity|]. split; [vm_compute; reflexivity|].
  split; [vm_compute; reflexivity|]. split; [vm_compute; reflexivity|]. split; [vm_compute; reflexivity|].
  split; [reflexivity|]. split; vm_compute; discriminate.
Qed.
