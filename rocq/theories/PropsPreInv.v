(** Property C63: what PCA and LDA depend on: not on the position of the origin, not on the order in
    which the samples are listed, not on the names of the classes. *)
From Coq Require Import Reals Lra Psatz Permutation.
From Verif Require Import Py Num Numpy StructProofs RVec RMat Preprocess PropsPCA PropsLDA.
Open Scope R_scope.

(** ** Specification *)
(** every sample moved by the same vector b *)
Definition moved (b : rvec) (x : rmat) : rmat := map (fun r => map (fun p => fst p + snd p) (combine r b)) x.
(** the elements of l in the order given by the list of positions s *)
Definition reordered {A} (d : A) (s : list nat) (l : list A) : list A := map (fun i => nth i l d) s.
Definition reordering (N : nat) (s : list nat) : Prop := Permutation s (seq 0 N).

(** two runs of the same function: equal failure, or both succeed with related values *)
Definition both {A} (rel : A -> A -> Prop) (r1 r2 : result A) : Prop :=
  match r1, r2 with
  | Ok a, Ok b => rel a b
  | Err e1, Err e2 => e1 = e2
  | _, _ => False
  end.

(** ** Sums over reordered samples *)
Lemma Rsum_perm (u v : rvec) : Permutation u v -> Rsum u = Rsum v.
Proof. induction 1; cbn [Rsum]; lra. Qed.
Lemma sumn_seq N f : sumn N f = Rsum (map f (seq 0 N)).
Proof.
  rewrite Rsum_sumn, map_length, seq_length. apply sumn_ext. intros i Hi.
  rewrite (map_nth_lt _ _ _ 0%nat) by (rewrite seq_length; auto). rewrite seq_nth by auto. reflexivity.
Qed.
Lemma reordering_length N s : reordering N s -> length s = N.
Proof. intros H. rewrite (Permutation_length H), seq_length; auto. Qed.
Lemma reordering_lt N s k : reordering N s -> (k < N)%nat -> (nth k s 0 < N)%nat.
Proof.
  intros H Hk. assert (Hin : In (nth k s 0%nat) s) by (apply nth_In; rewrite (reordering_length N s H); auto).
  apply (Permutation_in _ H), in_seq in Hin. lia.
Qed.
Lemma sumn_reorder N s f : reordering N s -> sumn N (fun k => f (nth k s 0%nat)) = sumn N f.
Proof.
  intros H. rewrite !sumn_seq.
  rewrite <- (map_map (fun k => nth k s 0%nat) f). apply Rsum_perm, Permutation_map.
  pose proof (map_nth_seq s 0%nat) as E. rewrite (reordering_length N s H) in E.
  rewrite E. exact H.
Qed.

Lemma moved_shape N c b x : shape N c x -> length b = c -> shape N c (moved b x).
Proof.
  intros (Hl & HF) Hb. split; [unfold moved; rewrite map_length; auto|].
  apply Forall_map. eapply Forall_impl; [|exact HF]. intros r Hr. rewrite map_length, combine_length. cbv beta in Hr. lia.
Qed.
Lemma moved_ent N c b x k j : shape N c x -> length b = c -> (k < N)%nat -> (j < c)%nat ->
  ent (moved b x) k j = ent x k j + nth j b 0.
Proof.
  intros Hx Hb Hk Hj. pose proof Hx as (Hl & _). unfold ent, moved.
  rewrite (map_nth_lt _ _ _ ([] : rvec)) by lia.
  assert (Hr : length (nth k x []) = c) by (apply (shape_row N c); auto).
  rewrite (map_nth_lt _ _ _ (0, 0)) by (rewrite combine_length; lia).
  rewrite combine_nth by congruence. reflexivity.
Qed.
Lemma reordered_shape N c s x : shape N c x -> reordering N s -> shape N c (reordered [] s x).
Proof.
  intros Hx Hs. unfold reordered. split; [rewrite map_length; apply (reordering_length N s Hs)|].
  apply Forall_map, Forall_forall. intros i Hi. apply (Permutation_in _ Hs), in_seq in Hi.
  apply (shape_row N c); auto. lia.
Qed.
Lemma reordered_nth {A} (d : A) N s l k : reordering N s -> (k < N)%nat ->
  nth k (reordered d s l) d = nth (nth k s 0%nat) l d.
Proof. intros Hs Hk. unfold reordered. rewrite (map_nth_lt _ _ _ 0%nat); auto. rewrite (reordering_length N s Hs); auto. Qed.
Lemma reordered_ent N s x k j : reordering N s -> (k < N)%nat -> ent (reordered [] s x) k j = ent x (nth k s 0%nat) j.
Proof. intros Hs Hk. unfold ent. rewrite (reordered_nth [] N) by auto. reflexivity. Qed.

(** ** Covariance and scatter *)
Lemma smean_moved N f b : (0 < N)%nat -> smean N (fun k => f k + b) = smean N f + b.
Proof.
  intros HN. unfold smean. rewrite sumn_plus.
  assert (E : sumn N (fun _ => b) = INR N * b).
  { clear HN. induction N as [|n IH]; [simpl; ring|]. rewrite S_INR. change (sumn (S n) (fun _ => b)) with (sumn n (fun _ => b) + b). rewrite IH. ring. }
  rewrite E. field. apply not_0_INR. lia.
Qed.
Lemma scov_ext N f f' g g' : (forall k, (k < N)%nat -> f k = f' k) -> (forall k, (k < N)%nat -> g k = g' k) -> scov N f g = scov N f' g'.
Proof.
  intros Hf Hg. unfold scov, smean. rewrite (sumn_ext N f f' Hf), (sumn_ext N g g' Hg). f_equal.
  apply sumn_ext. intros k Hk. rewrite Hf, Hg by auto. reflexivity.
Qed.
Lemma scov_moved N f g a b : (0 < N)%nat -> scov N (fun k => f k + a) (fun k => g k + b) = scov N f g.
Proof. intros HN. unfold scov. rewrite !smean_moved by auto. f_equal. apply sumn_ext; intros; ring. Qed.
Lemma scov_reorder N s f g : reordering N s -> scov N (fun k => f (nth k s 0%nat)) (fun k => g (nth k s 0%nat)) = scov N f g.
Proof.
  intros Hs. unfold scov, smean. rewrite (sumn_reorder N s f Hs), (sumn_reorder N s g Hs).
  f_equal. apply (sumn_reorder N s (fun k => (f k - sumn N f / INR N) * (g k - sumn N g / INR N)) Hs).
Qed.

Section Scatter.
  Context {L : Type}.
  Variable eqb : L -> L -> bool.
  Hypothesis eqb_ok : forall a b, eqb a b = true <-> a = b.
  Lemma cmean_moved N lab f a k : (k < N)%nat -> cmean eqb N lab (fun k => f k + a) (lab k) = cmean eqb N lab f (lab k) + a.
  Proof.
    intros Hk. pose proof (csize_pos eqb eqb_ok N lab k Hk) as Hp. unfold cmean.
    rewrite (sumn_ext N _ (fun i => ind (eqb (lab i) (lab k)) (f i) + a * ind (eqb (lab i) (lab k)) 1)).
    - rewrite sumn_plus, sumn_scal. fold (csize eqb N lab (lab k)). field. lra.
    - intros i _. destruct (eqb _ _); simpl; ring.
  Qed.
  Lemma within_moved N lab f g a b : within eqb N lab (fun k => f k + a) (fun k => g k + b) = within eqb N lab f g.
  Proof. unfold within. apply sumn_ext. intros k Hk. rewrite !cmean_moved by auto. ring. Qed.
  Lemma between_moved N lab f g a b : between eqb N lab (fun k => f k + a) (fun k => g k + b) = between eqb N lab f g.
  Proof. unfold between. apply sumn_ext. intros k Hk. rewrite !cmean_moved, !smean_moved by lia || auto. ring. Qed.
  Lemma cmean_ext N lab lab' f f' c : (forall k, (k < N)%nat -> lab k = lab' k) -> (forall k, (k < N)%nat -> f k = f' k) ->
    cmean eqb N lab f c = cmean eqb N lab' f' c.
  Proof.
    intros Hl Hf. unfold cmean, csize.
    rewrite (sumn_ext N (fun k => ind (eqb (lab k) c) (f k)) (fun k => ind (eqb (lab' k) c) (f' k))) by (intros k Hk; rewrite Hl, Hf by auto; reflexivity).
    rewrite (sumn_ext N (fun k => ind (eqb (lab k) c) 1) (fun k => ind (eqb (lab' k) c) 1)) by (intros k Hk; rewrite Hl by auto; reflexivity).
    reflexivity.
  Qed.
  Lemma within_ext N lab lab' f f' g g' : (forall k, (k < N)%nat -> lab k = lab' k) ->
    (forall k, (k < N)%nat -> f k = f' k) -> (forall k, (k < N)%nat -> g k = g' k) ->
    within eqb N lab f g = within eqb N lab' f' g'.
  Proof.
    intros Hl Hf Hg. unfold within. apply sumn_ext. intros k Hk.
    rewrite Hl, Hf, Hg by auto. rewrite (cmean_ext N lab lab' f f'), (cmean_ext N lab lab' g g') by auto. reflexivity.
  Qed.
  Lemma between_ext N lab lab' f f' g g' : (forall k, (k < N)%nat -> lab k = lab' k) ->
    (forall k, (k < N)%nat -> f k = f' k) -> (forall k, (k < N)%nat -> g k = g' k) ->
    between eqb N lab f g = between eqb N lab' f' g'.
  Proof.
    intros Hl Hf Hg. unfold between. apply sumn_ext. intros k Hk.
    rewrite Hl by auto. rewrite (cmean_ext N lab lab' f f'), (cmean_ext N lab lab' g g') by auto.
    unfold smean. rewrite (sumn_ext N f f'), (sumn_ext N g g') by auto. reflexivity.
  Qed.
  Section Reorder.
    Variables (N : nat) (s : list nat) (lab : nat -> L).
    Hypothesis Hs : reordering N s.
    Let t k := nth k s 0%nat.
    Lemma cmean_reorder f c : cmean eqb N (fun k => lab (t k)) (fun k => f (t k)) c = cmean eqb N lab f c.
    Proof.
      unfold cmean, csize, t.
      rewrite (sumn_reorder N s (fun k => ind (eqb (lab k) c) (f k)) Hs), (sumn_reorder N s (fun k => ind (eqb (lab k) c) 1) Hs).
      reflexivity.
    Qed.
    Lemma within_reorder f g : within eqb N (fun k => lab (t k)) (fun k => f (t k)) (fun k => g (t k)) = within eqb N lab f g.
    Proof.
      unfold within. rewrite <- (sumn_reorder N s (fun k => (f k - cmean eqb N lab f (lab k)) * (g k - cmean eqb N lab g (lab k))) Hs).
      apply sumn_ext. intros k _. rewrite !cmean_reorder. reflexivity.
    Qed.
    Lemma between_reorder f g : between eqb N (fun k => lab (t k)) (fun k => f (t k)) (fun k => g (t k)) = between eqb N lab f g.
    Proof.
      assert (Em : forall h, smean N (fun k => h (t k)) = smean N h) by (intros h; unfold smean, t; rewrite (sumn_reorder N s h Hs); reflexivity).
      unfold between. rewrite !Em. unfold smean.
      rewrite <- (sumn_reorder N s (fun k => (cmean eqb N lab f (lab k) - sumn N f / INR N) * (cmean eqb N lab g (lab k) - sumn N g / INR N)) Hs).
      apply sumn_ext. intros k _. rewrite !cmean_reorder. reflexivity.
    Qed.
  End Reorder.
  (** other names *)
  Context {L' : Type}.
  Variable eqb' : L' -> L' -> bool.
  Hypothesis eqb_ok' : forall a b, eqb' a b = true <-> a = b.
  Variable rn : L -> L'.
  Hypothesis rn_inj : forall a b, rn a = rn b -> a = b.
  Lemma eqb_rn a b : eqb' (rn a) (rn b) = eqb a b.
  Proof.
    destruct (eqb a b) eqn:E.
    - apply eqb_ok'. f_equal. apply eqb_ok; auto.
    - destruct (eqb' (rn a) (rn b)) eqn:E'; auto. apply eqb_ok', rn_inj, eqb_ok in E'. congruence.
  Qed.
  Lemma cmean_rn N lab f c : cmean eqb' N (fun k => rn (lab k)) f (rn c) = cmean eqb N lab f c.
  Proof. 
    unfold cmean, csize.
    rewrite (sumn_ext N (fun k => ind (eqb' (rn (lab k)) (rn c)) (f k)) (fun k => ind (eqb (lab k) c) (f k))) by (intros k Hk; rewrite eqb_rn; reflexivity).
    rewrite (sumn_ext N (fun k => ind (eqb' (rn (lab k)) (rn c)) 1) (fun k => ind (eqb (lab k) c) 1)) by (intros k Hk; rewrite eqb_rn; reflexivity).
    reflexivity.
  Qed.
  Lemma within_rn N lab f g : within eqb' N (fun k => rn (lab k)) f g = within eqb N lab f g.
  Proof. unfold within. apply sumn_ext. intros k _. rewrite !cmean_rn. reflexivity. Qed.
  Lemma between_rn N lab f g : between eqb' N (fun k => rn (lab k)) f g = between eqb N lab f g.
  Proof. unfold between. apply sumn_ext. intros k _. rewrite !cmean_rn. reflexivity. Qed.
End Scatter.

Section Invariance.
  Variable solve : list rvec -> list rvec -> option (list rvec).
  #[local] Hint Extern 0 (Num R) => exact (RNum solve) : typeclass_instances.
  Variable eig : rmat -> option (rvec * rmat).
  Variable argsort : rvec -> list nat.
  Hypothesis argsort_ok : forall v, sorting_indices v (argsort v).
  (** the eigen-solver returns arrays of the right shape *)
  Hypothesis eig_shape : forall c A values V, shape c c A -> eig A = Some (values, V) -> length values = c /\ shape c c V.

  Lemma project_moved N cols x b n values V : shape N cols x -> length b = cols -> (effective_n cols n < Z.of_nat cols)%Z ->
    length values = cols -> shape cols cols V ->
    exists t, length t = kept cols n /\
      project argsort cols (moved b x) (effective_n cols n) values V = moved t (project argsort cols x (effective_n cols n) values V).
  Proof.
    intros Hx Hb Hn Hlv HV.
    destruct (project_out solve argsort argsort_ok N cols x n values V Hx Hn Hlv HV) as (P1 & P2).
    destruct (project_out solve argsort argsort_ok N cols (moved b x) n values V (moved_shape N cols b x Hx Hb) Hn Hlv HV) as (Q1 & Q2).
    set (t := map (fun i => sumn cols (fun j => ent V j (nth i (descending argsort values) 0%nat) * nth j b 0)) (seq 0 (kept cols n))).
    assert (Ht : length t = kept cols n) by (unfold t; rewrite map_length, seq_length; auto).
    exists t. split; auto. apply (ent_ext N (kept cols n)); auto.
    - apply moved_shape; auto.
    - intros k i Hk Hi. rewrite Q2 by auto. rewrite (moved_ent N (kept cols n)) by auto. rewrite P2 by auto.
      unfold t. rewrite (map_nth_lt _ _ _ 0%nat) by (rewrite seq_length; auto). rewrite seq_nth by auto.
      rewrite <- sumn_plus. apply sumn_ext. intros j Hj. rewrite (moved_ent N cols) by auto. simpl. ring.
  Qed.
  Lemma project_reordered N cols x s n values V : shape N cols x -> reordering N s -> (effective_n cols n < Z.of_nat cols)%Z ->
    length values = cols -> shape cols cols V ->
    project argsort cols (reordered [] s x) (effective_n cols n) values V = reordered [] s (project argsort cols x (effective_n cols n) values V).
  Proof.
    intros Hx Hs Hn Hlv HV.
    destruct (project_out solve argsort argsort_ok N cols x n values V Hx Hn Hlv HV) as (P1 & P2).
    destruct (project_out solve argsort argsort_ok N cols (reordered [] s x) n values V (reordered_shape N cols s x Hx Hs) Hn Hlv HV) as (Q1 & Q2).
    apply (ent_ext N (kept cols n)); auto.
    - apply reordered_shape; auto.
    - intros k i Hk Hi. rewrite Q2 by auto. rewrite (reordered_ent N) by auto. rewrite P2 by (auto; apply (reordering_lt N); auto).
      apply sumn_ext. intros j Hj. rewrite (reordered_ent N) by auto. reflexivity.
  Qed.

  (** ** PCA *)
  Lemma PCA_same N cols x x' n (rel : rmat -> rmat -> Prop) : shape N cols x -> shape N cols x' -> (2 <= N)%nat ->
    (forall i j, (i < cols)%nat -> (j < cols)%nat ->
       scov N (fun k => ent x k i) (fun k => ent x k j) = scov N (fun k => ent x' k i) (fun k => ent x' k j)) ->
    (forall values V, (effective_n cols n < Z.of_nat cols)%Z -> length values = cols -> shape cols cols V ->
       rel (project argsort cols x (effective_n cols n) values V) (project argsort cols x' (effective_n cols n) values V)) ->
    PCA_components eig argsort cols x = PCA_components eig argsort cols x' /\
    both rel (PCA eig argsort cols x n) (PCA eig argsort cols x' n).
  Proof.
    intros Hx Hx' HN Hc Hrel.
    destruct (C37_covariance solve N cols x Hx HN) as (S1 & E1).
    destruct (C37_covariance solve N cols x' Hx' HN) as (S2 & E2).
    assert (E : cov cols x = cov cols x').
    { apply (ent_ext cols cols); auto. intros i j Hi Hj. rewrite E1, E2 by auto. auto. }
    unfold PCA_components, PCA, eig_cov. rewrite <- E. split; auto.
    change (features cols n) with (effective_n cols n).
    destruct (Z.leb_spec (Z.of_nat cols) (effective_n cols n)) as [H|H]; [reflexivity|].
    destruct (Nat.eqb_spec cols 1); [reflexivity|].
    destruct (eig (cov cols x)) as [[values V]|] eqn:He; [|reflexivity]. cbn [rmap both].
    destruct (eig_shape cols _ values V S1 He). apply Hrel; auto.
  Qed.

  (** moving all samples by one vector: the same components, and the transformed samples are all
      moved by one vector too *)
  Theorem C63_PCA_moved : forall N cols x b n, shape N cols x -> (2 <= N)%nat -> length b = cols ->
    PCA_components eig argsort cols (moved b x) = PCA_components eig argsort cols x /\
    both (fun out out' => exists t, length t = kept cols n /\ out' = moved t out)
      (PCA eig argsort cols x n) (PCA eig argsort cols (moved b x) n).
  Proof.
    intros N cols x b n Hx HN Hb.
    destruct (PCA_same N cols x (moved b x) n (fun out out' => exists t, length t = kept cols n /\ out' = moved t out)) as (H1 & H2); auto.
    - apply moved_shape; auto.
    - intros i j Hi Hj. rewrite <- (scov_moved N _ _ (nth i b 0) (nth j b 0)) by lia.
      apply scov_ext; intros k Hk; symmetry; apply (moved_ent N cols); auto.
    - intros values V Hn Hlv HV. apply (project_moved N cols x b n values V); auto.
  Qed.
  (** listing the samples in another order: the same components, the same transformed samples in
      that order *)
  Theorem C63_PCA_reordered : forall N cols x s n, shape N cols x -> (2 <= N)%nat -> reordering N s ->
    PCA_components eig argsort cols (reordered [] s x) = PCA_components eig argsort cols x /\
    both (fun out out' => out' = reordered [] s out)
      (PCA eig argsort cols x n) (PCA eig argsort cols (reordered [] s x) n).
  Proof.
    intros N cols x s n Hx HN Hs.
    destruct (PCA_same N cols x (reordered [] s x) n (fun out out' => out' = reordered [] s out)) as (H1 & H2); auto.
    - apply reordered_shape; auto.
    - intros i j Hi Hj. rewrite <- (scov_reorder N s _ _ Hs).
      apply scov_ext; intros k Hk; symmetry; apply (reordered_ent N); auto.
    - intros values V Hn Hlv HV. apply (project_reordered N); auto.
  Qed.

  (** ** LDA *)
  Context {L L' : Type}.
  Variable eqb : L -> L -> bool.
  Hypothesis eqb_ok : forall a b, eqb a b = true <-> a = b.
  Variable set_order : list L -> list L.
  Hypothesis set_order_ok : forall l, enumerates l (set_order l).
  Variable eqb' : L' -> L' -> bool.
  Hypothesis eqb_ok' : forall a b, eqb' a b = true <-> a = b.
  Variable set_order' : list L' -> list L'.
  Hypothesis set_order_ok' : forall l, enumerates l (set_order' l).
  Variable inv : rmat -> option rmat.
  (** the inverse has the shape of the matrix *)
  Hypothesis inv_shape : forall c A B, shape c c A -> inv A = Some B -> shape c c B.

  Lemma LDA_same N cols x x' labels labels' d d' n (rel : rmat -> rmat -> Prop) :
    shape N cols x -> shape N cols x' -> length labels = N -> length labels' = N ->
    (forall i j, (i < cols)%nat -> (j < cols)%nat ->
       within eqb N (fun k => nth k labels d) (fun k => ent x k i) (fun k => ent x k j)
       = within eqb' N (fun k => nth k labels' d') (fun k => ent x' k i) (fun k => ent x' k j) /\
       between eqb N (fun k => nth k labels d) (fun k => ent x k i) (fun k => ent x k j)
       = between eqb' N (fun k => nth k labels' d') (fun k => ent x' k i) (fun k => ent x' k j)) ->
    (forall values V, (effective_n cols n < Z.of_nat cols)%Z -> length values = cols -> shape cols cols V ->
       rel (project argsort cols x (effective_n cols n) values V) (project argsort cols x' (effective_n cols n) values V)) ->
    LDA_discriminants eig argsort eqb set_order inv cols x labels = LDA_discriminants eig argsort eqb' set_order' inv cols x' labels' /\
    both rel (LDA eig argsort eqb set_order inv cols x labels n) (LDA eig argsort eqb' set_order' inv cols x' labels' n).
  Proof.
    intros Hx Hx' Hl Hl' Hs Hrel.
    destruct (scatter_within_ok solve eqb eqb_ok N cols x labels d (set_order labels) Hx Hl (set_order_ok labels)) as (W1 & W2).
    destruct (scatter_between_ok solve eqb eqb_ok N cols x labels d (set_order labels) Hx Hl (set_order_ok labels)) as (B1 & B2).
    destruct (scatter_within_ok solve eqb' eqb_ok' N cols x' labels' d' (set_order' labels') Hx' Hl' (set_order_ok' labels')) as (W3 & W4).
    destruct (scatter_between_ok solve eqb' eqb_ok' N cols x' labels' d' (set_order' labels') Hx' Hl' (set_order_ok' labels')) as (B3 & B4).
    assert (EW : scatter_within eqb cols x labels (set_order labels) = scatter_within eqb' cols x' labels' (set_order' labels')).
    { apply (ent_ext cols cols); auto. intros i j Hi Hj. rewrite W2, W4 by auto. apply Hs; auto. }
    assert (EB : scatter_between eqb cols x labels (set_order labels) = scatter_between eqb' cols x' labels' (set_order' labels')).
    { apply (ent_ext cols cols); auto. intros i j Hi Hj. rewrite B2, B4 by auto. apply Hs; auto. }
    assert (Hb : LDA_base eig eqb set_order inv cols x labels = LDA_base eig eqb' set_order' inv cols x' labels').
    { unfold LDA_base. destruct Hx as (Hxl & _). destruct Hx' as (Hxl' & _).
      rewrite Hl, Hxl, Hl', Hxl', Nat.eqb_refl. cbn [negb]. rewrite EW, EB. reflexivity. }
    unfold LDA_discriminants, LDA. rewrite <- Hb. split; auto.
    change (features cols n) with (effective_n cols n).
    destruct (Z.leb_spec (Z.of_nat cols) (effective_n cols n)) as [H|H]; [reflexivity|].
    destruct (LDA_base eig eqb set_order inv cols x labels) as [[values V]|e] eqn:Eb; [|reflexivity]. cbn [rmap both].
    unfold LDA_base in Eb. destruct Hx as (Hxl & _). rewrite Hl, Hxl, Nat.eqb_refl in Eb. cbn [negb] in Eb.
    destruct (inv (scatter_within eqb cols x labels (set_order labels))) as [si|] eqn:Ei; [|discriminate].
    destruct (eig (mm cols si (scatter_between eqb cols x labels (set_order labels)))) as [r|] eqn:Ee; [|discriminate].
    injection Eb as Eb. subst r.
    assert (Hsi : shape cols cols si) by exact (inv_shape cols _ si W1 Ei).
    assert (Hm : shape cols cols (mm cols si (scatter_between eqb cols x labels (set_order labels)))).
    { apply (mm_shape solve). apply Hsi. }
    destruct (eig_shape cols _ values V Hm Ee). apply Hrel; auto.
  Qed.
End Invariance.

Section LDA.
  Variable solve : list rvec -> list rvec -> option (list rvec).
  #[local] Hint Extern 0 (Num R) => exact (RNum solve) : typeclass_instances.
  Variable eig : rmat -> option (rvec * rmat).
  Variable argsort : rvec -> list nat.
  Hypothesis argsort_ok : forall v, sorting_indices v (argsort v).
  Hypothesis eig_shape : forall c A values V, shape c c A -> eig A = Some (values, V) -> length values = c /\ shape c c V.
  Variable inv : rmat -> option rmat.
  Hypothesis inv_shape : forall c A B, shape c c A -> inv A = Some B -> shape c c B.
  Context {L L' : Type}.
  Variable eqb : L -> L -> bool.
  Hypothesis eqb_ok : forall a b, eqb a b = true <-> a = b.
  Variable set_order : list L -> list L.
  Hypothesis set_order_ok : forall l, enumerates l (set_order l).
  Variable eqb' : L' -> L' -> bool.
  Hypothesis eqb_ok' : forall a b, eqb' a b = true <-> a = b.
  Variable set_order' : list L' -> list L'.
  Hypothesis set_order_ok' : forall l, enumerates l (set_order' l).

  Theorem C63_LDA_moved : forall N cols x b labels (d : L) n, shape N cols x -> length labels = N -> length b = cols ->
    LDA_discriminants eig argsort eqb set_order inv cols (moved b x) labels
      = LDA_discriminants eig argsort eqb set_order inv cols x labels /\
    both (fun out out' => exists t, length t = kept cols n /\ out' = moved t out)
      (LDA eig argsort eqb set_order inv cols x labels n)
      (LDA eig argsort eqb set_order inv cols (moved b x) labels n).
  Proof.
    intros N cols x b labels d n Hx Hl Hb.
    destruct (LDA_same solve eig argsort eig_shape eqb eqb_ok set_order set_order_ok eqb eqb_ok set_order set_order_ok inv inv_shape
      N cols x (moved b x) labels labels d d n (fun out out' => exists t, length t = kept cols n /\ out' = moved t out)) as (H1 & H2); auto.
    - apply moved_shape; auto.
    - intros i j Hi Hj.
      rewrite <- (within_moved eqb eqb_ok N (fun k => nth k labels d) (fun k => ent x k i) (fun k => ent x k j) (nth i b 0) (nth j b 0)).
      rewrite <- (between_moved eqb eqb_ok N (fun k => nth k labels d) (fun k => ent x k i) (fun k => ent x k j) (nth i b 0) (nth j b 0)).
      split; [apply within_ext|apply between_ext]; auto; intros k Hk; symmetry; apply (moved_ent N cols); auto.
    - intros values V Hn Hlv HV. apply (project_moved solve argsort argsort_ok N cols x b n values V); auto.
  Qed.
  (** samples and labels listed in another order *)
  Theorem C63_LDA_reordered : forall N cols x s labels (d : L) n, shape N cols x -> length labels = N -> reordering N s ->
    LDA_discriminants eig argsort eqb set_order inv cols (reordered [] s x) (reordered d s labels)
      = LDA_discriminants eig argsort eqb set_order inv cols x labels /\
    both (fun out out' => out' = reordered [] s out)
      (LDA eig argsort eqb set_order inv cols x labels n)
      (LDA eig argsort eqb set_order inv cols (reordered [] s x) (reordered d s labels) n).
  Proof.
    intros N cols x s labels d n Hx Hl Hs.
    destruct (LDA_same solve eig argsort eig_shape eqb eqb_ok set_order set_order_ok eqb eqb_ok set_order set_order_ok inv inv_shape
      N cols x (reordered [] s x) labels (reordered d s labels) d d n (fun out out' => out' = reordered [] s out)) as (H1 & H2); auto.
    - apply reordered_shape; auto.
    - unfold reordered. rewrite map_length. apply (reordering_length N s Hs).
    - intros i j Hi Hj.
      rewrite <- (within_reorder eqb N s (fun k => nth k labels d) Hs (fun k => ent x k i) (fun k => ent x k j)).
      rewrite <- (between_reorder eqb N s (fun k => nth k labels d) Hs (fun k => ent x k i) (fun k => ent x k j)).
      split; [apply within_ext|apply between_ext]; auto; intros k Hk; symmetry;
        first [apply (reordered_ent N) | apply (reordered_nth d N)]; auto.
    - intros values V Hn Hlv HV. apply (project_reordered solve argsort argsort_ok N); auto.
  Qed.
  (** other, still different names for the classes, of any type *)
  Theorem C63_LDA_renamed : forall N cols x labels (d : L) (rn : L -> L') n, shape N cols x -> length labels = N ->
    (forall a b, rn a = rn b -> a = b) ->
    LDA_discriminants eig argsort eqb' set_order' inv cols x (map rn labels)
      = LDA_discriminants eig argsort eqb set_order inv cols x labels /\
    LDA eig argsort eqb' set_order' inv cols x (map rn labels) n = LDA eig argsort eqb set_order inv cols x labels n.
  Proof.
    intros N cols x labels d rn n Hx Hl Hrn.
    destruct (LDA_same solve eig argsort eig_shape eqb eqb_ok set_order set_order_ok eqb' eqb_ok' set_order' set_order_ok' inv inv_shape
      N cols x x labels (map rn labels) d (rn d) n (fun out out' => out' = out)) as (H1 & H2); auto.
    - rewrite map_length; auto.
    - intros i j Hi Hj.
      rewrite <- (within_rn eqb eqb_ok eqb' eqb_ok' rn Hrn N (fun k => nth k labels d)).
      rewrite <- (between_rn eqb eqb_ok eqb' eqb_ok' rn Hrn N (fun k => nth k labels d)).
      split; [apply within_ext|apply between_ext]; auto; intros k Hk; symmetry; apply map_nth.
    - split; [auto|]. unfold both in H2.
      destruct (LDA eig argsort eqb set_order inv cols x labels n), (LDA eig argsort eqb' set_order' inv cols x (map rn labels) n);
        congruence || contradiction.
  Qed.
End LDA.

(** ** The hypotheses are met: the data of C38, a solver that knows that one matrix *)
Section Example63.
  Variable solve : list rvec -> list rvec -> option (list rvec).
  #[local] Hint Extern 0 (Num R) => exact (RNum solve) : typeclass_instances.
  Definition eig63 (A : rmat) : option (rvec * rmat) := match A with [_; _] => Some ([0; 8], V38) | _ => None end.
  Definition inv63 (A : rmat) : option rmat := match A with [_; _] => Some si38 | _ => None end.
  Example C63_hypotheses :
    (forall v, sorting_indices v (insertion_argsort v)) /\
    (forall c A values V, shape c c A -> eig63 A = Some (values, V) -> length values = c /\ shape c c V) /\
    (forall c A B, shape c c A -> inv63 A = Some B -> shape c c B) /\
    (forall l, enumerates l (order38 l)) /\ (forall a b, Bool.eqb a b = true <-> a = b) /\
    shape 4 2 x38 /\ length lab38 = 4%nat /\ length ([10; 20] : rvec) = 2%nat /\
    reordering 4 [2; 0; 3; 1]%nat /\ (reordered [] [2; 0; 3; 1]%nat x38 <> x38) /\ (moved [10; 20] x38 <> x38) /\
    (forall a b : bool, (if a then 7 else 9)%nat = (if b then 7 else 9)%nat -> a = b) /\
    (exists out, LDA eig63 insertion_argsort Bool.eqb order38 inv63 2 x38 lab38 (Some 1%Z) = Ok out) /\
    (exists out, PCA eig63 insertion_argsort 2 x38 (Some 1%Z) = Ok out).
  Proof.
    assert (H2 : forall (A : rmat) (B : Type) (b b' : B), (match A with [_; _] => Some b | _ => None end) = Some b' -> length A = 2%nat /\ b = b').
    { intros [|u [|v [|w A]]] B b b' E; try discriminate. injection E as E. auto. }
    split; [apply insertion_argsort_ok|].
    split. { intros c A values V (Hl & _) E. apply H2 in E as (E1 & E2). apply pair_equal_spec in E2 as (<- & <-).
             assert (c = 2%nat) by congruence. clear Hl; subst c. split; [reflexivity|]. split; [reflexivity|repeat constructor]. }
    split. { intros c A B (Hl & _) E. apply H2 in E as (E1 & <-). assert (c = 2%nat) by congruence. clear Hl; subst c.
             split; [reflexivity|repeat constructor]. }
    split. { intros l; split; [apply NoDup_nodup|]. intros c; apply nodup_In. }
    split; [intros a b; apply Bool.eqb_true_iff|].
    split; [split; [reflexivity|repeat constructor]|]. split; [reflexivity|]. split; [reflexivity|].
    split. { unfold reordering. cbn [seq]. apply NoDup_Permutation.
             - repeat constructor; cbn [In]; lia.
             - repeat constructor; cbn [In]; lia.
             - intros i; cbn [In]; lia. }
    split. { unfold reordered, x38. cbn [map nth]. intros E. injection E as E; lra. }
    split. { unfold moved, x38. cbn [map combine fst snd]. intros E. injection E as E; lra. }
    split; [intros [] [] E; auto; discriminate|].
    split; eexists; reflexivity.
  Qed.
End Example63.
