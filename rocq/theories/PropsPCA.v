(** Property C37: PCA and PCA_components. *)
From Coq Require Import Reals Lra Psatz Permutation.
From Verif Require Import Py Num Numpy StructProofs RVec RMat Preprocess.
Open Scope R_scope.

(** ** Specification *)
(** the indices that sort v in ascending order *)
Definition sorting_indices (v : rvec) (p : list nat) : Prop :=
  Permutation p (seq 0 (length v)) /\
  forall a b, (a < b < length v)%nat -> nth (nth a p 0%nat) v 0 <= nth (nth b p 0%nat) v 0.

Definition descending_list (l : rvec) : Prop := forall a b, (a <= b < length l)%nat -> nth b l 0 <= nth a l 0.

(** column i of V is a unit eigenvector of A to the i-th value *)
Definition unit_eigensystem (c : nat) (A : nat -> nat -> R) (values : rvec) (V : rmat) : Prop :=
  length values = c /\ shape c c V /\
  forall i, (i < c)%nat ->
    sumn c (fun k => ent V k i * ent V k i) = 1 /\
    forall j, (j < c)%nat -> sumn c (fun k => A j k * ent V k i) = nth i values 0 * ent V j i.

Definition orthogonal_matrix (c : nat) (V : rmat) : Prop :=
  (forall i j, (i < c)%nat -> (j < c)%nat -> sumn c (fun k => ent V k i * ent V k j) = if Nat.eqb i j then 1 else 0) /\
  (forall i j, (i < c)%nat -> (j < c)%nat -> sumn c (fun k => ent V i k * ent V j k) = if Nat.eqb i j then 1 else 0).

(** sample mean and (unbiased) sample covariance of two series of N numbers *)
Definition smean (N : nat) (f : nat -> R) : R := sumn N f / INR N.
Definition scov (N : nat) (f g : nat -> R) : R :=
  sumn N (fun k => (f k - smean N f) * (g k - smean N g)) / (INR N - 1).

(** ** Sorting *)
Section Sort.
  Variable solve : list rvec -> list rvec -> option (list rvec).
  #[local] Hint Extern 0 (Num R) => exact (RNum solve) : typeclass_instances.

  (** a concrete argsort: insertion of indices *)
  Fixpoint ins (v : rvec) (i : nat) (l : list nat) : list nat :=
    match l with
    | [] => [i]
    | j :: l' => if Rle_dec (nth i v 0) (nth j v 0) then i :: l else j :: ins v i l'
    end.
  Definition insertion_argsort (v : rvec) : list nat := fold_right (ins v) [] (seq 0 (length v)).

  Lemma ins_perm v i l : Permutation (ins v i l) (i :: l).
  Proof.
    induction l as [|j l IH]; simpl; auto. destruct (Rle_dec _ _); auto.
    eapply perm_trans; [apply perm_skip, IH|apply perm_swap].
  Qed.
  Definition chain (v : rvec) (l : list nat) : Prop :=
    forall a b, (a <= b < length l)%nat -> nth (nth a l 0%nat) v 0 <= nth (nth b l 0%nat) v 0.
  Lemma chain_cons v i l : chain v l -> (forall j, In j l -> nth i v 0 <= nth j v 0) -> chain v (i :: l).
  Proof.
    intros Hc Hi [|a] [|b] H; simpl in *; try lia; [apply Rle_refl| |apply Hc; lia].
    apply Hi, nth_In; lia.
  Qed.
  Lemma chain_tail v i l : chain v (i :: l) -> chain v l /\ forall j, In j l -> nth i v 0 <= nth j v 0.
  Proof.
    intros Hc; split.
    - intros a b H. apply (Hc (S a) (S b)); simpl; lia.
    - intros j Hj. apply (In_nth _ _ 0%nat) in Hj as (k & Hk & <-). apply (Hc 0%nat (S k)); simpl; lia.
  Qed.
  Lemma ins_chain v i l : chain v l -> chain v (ins v i l).
  Proof.
    induction l as [|j l IH]; intros Hc; simpl.
    - intros a b H; simpl in H. replace a with 0%nat by lia. replace b with 0%nat by lia. apply Rle_refl.
    - destruct (Rle_dec _ _) as [Hle|Hgt].
      + apply chain_cons; auto. intros k [<-|Hk]; auto.
        apply chain_tail in Hc as (_ & Hc). specialize (Hc k Hk); lra.
      + apply chain_tail in Hc as (Hc & Hj). apply chain_cons; auto.
        intros k Hk. apply (Permutation_in _ (ins_perm v i l)) in Hk as [<-|Hk]; auto. lra.
  Qed.
  Lemma insertion_argsort_ok v : sorting_indices v (insertion_argsort v).
  Proof.
    unfold insertion_argsort, sorting_indices.
    assert (H : forall l, Permutation (fold_right (ins v) [] l) l /\ chain v (fold_right (ins v) [] l)).
    { induction l as [|i l (IH1 & IH2)]; simpl.
      - split; auto. intros a b H; simpl in H; lia.
      - split; [|apply ins_chain; auto]. eapply perm_trans; [apply ins_perm|auto]. }
    destruct (H (seq 0 (length v))) as (H1 & H2). split; auto. intros a b Hab. apply H2.
    rewrite (Permutation_length H1), seq_length. lia.
  Qed.

  Variable argsort : rvec -> list nat.
  Hypothesis argsort_ok : forall v, sorting_indices v (argsort v).

  Lemma descending_len (values : rvec) : length (descending argsort values) = length values.
  Proof.
    unfold descending. destruct (argsort_ok (map nopp values)) as (H & _).
    rewrite (Permutation_length H), seq_length, map_length; auto.
  Qed.
  Lemma descending_lt (values : rvec) i : (i < length values)%nat -> (nth i (descending argsort values) 0%nat < length values)%nat.
  Proof.
    intros Hi. unfold descending. destruct (argsort_ok (map nopp values)) as (H & _).
    pose proof (descending_len values) as Hl. unfold descending in Hl.
    assert (Hin : In (nth i (argsort (map nopp values)) 0%nat) (argsort (map nopp values))) by (apply nth_In; lia).
    apply (Permutation_in _ H), in_seq in Hin. rewrite map_length in Hin. lia.
  Qed.
  Lemma pick_nth (values : rvec) i : (i < length values)%nat ->
    nth i (pick 0 values (descending argsort values)) 0 = nth (nth i (descending argsort values) 0%nat) values 0.
  Proof.
    intros Hi. unfold pick. rewrite (map_nth_lt _ _ _ 0%nat); auto. rewrite descending_len; auto.
  Qed.
  Lemma pick_descending (values : rvec) : descending_list (pick 0 values (descending argsort values)).
  Proof.
    intros a b Hab. unfold pick in Hab. rewrite map_length, descending_len in Hab.
    rewrite !pick_nth by lia. destruct (Nat.eq_dec a b) as [->|Hne]; [apply Rle_refl|].
    destruct (argsort_ok (map nopp values)) as (_ & H). specialize (H a b). rewrite map_length in H.
    specialize (H ltac:(lia)). fold (descending argsort values) in H.
    pose proof (descending_lt values a ltac:(lia)). pose proof (descending_lt values b ltac:(lia)).
    rewrite !(map_nth_lt _ _ _ 0) in H by auto. simpl in H. lra.
  Qed.
  Lemma map_nth_seq {A} (l : list A) d : map (fun i => nth i l d) (seq 0 (length l)) = l.
  Proof.
    apply (nth_ext _ _ d d); [rewrite map_length, seq_length; auto|]. intros i Hi.
    rewrite map_length, seq_length in Hi. rewrite (map_nth_lt _ _ _ 0%nat) by (rewrite seq_length; auto).
    rewrite seq_nth by auto. reflexivity.
  Qed.
  Lemma pick_perm (values : rvec) : Permutation (pick 0 values (descending argsort values)) values.
  Proof.
    unfold pick. destruct (argsort_ok (map nopp values)) as (H & _). rewrite map_length in H.
    fold (descending argsort values) in H. eapply Permutation_trans; [apply Permutation_map; exact H|]. rewrite (map_nth_seq values 0); auto.
  Qed.
End Sort.

(** ** Sample covariance of linear combinations *)
Lemma smean_comb N c (a : nat -> R) (X : nat -> nat -> R) :
  smean N (fun k => sumn c (fun j => a j * X k j)) = sumn c (fun j => a j * smean N (fun k => X k j)).
Proof.
  unfold smean. rewrite sumn_swap. unfold Rdiv. rewrite <- sumn_scal_r. apply sumn_ext; intros j _.
  rewrite sumn_scal. ring.
Qed.
Lemma sumn_mul n m f g : sumn n f * sumn m g = sumn n (fun i => sumn m (fun j => f i * g j)).
Proof. rewrite <- sumn_scal_r. apply sumn_ext; intros. rewrite sumn_scal; reflexivity. Qed.
Lemma scov_comb N c a b (X : nat -> nat -> R) :
  scov N (fun k => sumn c (fun j => a j * X k j)) (fun k => sumn c (fun j => b j * X k j))
  = sumn c (fun i => sumn c (fun j => a i * b j * scov N (fun k => X k i) (fun k => X k j))).
Proof.
  unfold scov. rewrite !smean_comb.
  rewrite (sumn_ext N _ (fun k => sumn c (fun i => sumn c (fun j =>
     a i * b j * ((X k i - smean N (fun k => X k i)) * (X k j - smean N (fun k => X k j))))))).
  2:{ intros k _. rewrite <- !sumn_minus.
      rewrite (sumn_ext c (fun i => a i * X k i - a i * smean N (fun k => X k i)) (fun i => a i * (X k i - smean N (fun k => X k i)))) by (intros; ring).
      rewrite (sumn_ext c (fun i => b i * X k i - b i * smean N (fun k => X k i)) (fun i => b i * (X k i - smean N (fun k => X k i)))) by (intros; ring).
      rewrite sumn_mul. apply sumn_ext; intros i _. apply sumn_ext; intros j _. ring. }
  rewrite sumn_swap. unfold Rdiv. rewrite <- sumn_scal_r. apply sumn_ext; intros i _.
  rewrite sumn_swap, <- sumn_scal_r. apply sumn_ext; intros j _.
  rewrite sumn_scal. ring.
Qed.

Section PCA.
  Variable solve : list rvec -> list rvec -> option (list rvec).
  #[local] Hint Extern 0 (Num R) => exact (RNum solve) : typeclass_instances.
  Variable eig : rmat -> option (rvec * rmat).
  Variable argsort : rvec -> list nat.
  Hypothesis argsort_ok : forall v, sorting_indices v (argsort v).

  Lemma mean_smean (f : nat -> R) (v : rvec) N : length v = N -> (forall k, (k < N)%nat -> nth k v 0 = f k) -> mean v = smean N f.
  Proof.
    intros Hl H. unfold mean, smean, nofnat; simpl. rewrite Hl, Rsum_sumn, Hl, INR_IZR_INZ. f_equal.
    apply sumn_ext; auto.
  Qed.

  (** the matrix given to the eigen-solver is the sample covariance matrix of the columns *)
  Theorem C37_covariance : forall N cols x, shape N cols x -> (2 <= N)%nat ->
    shape cols cols (cov cols x) /\
    forall i j, (i < cols)%nat -> (j < cols)%nat ->
      ent (cov cols x) i j = scov N (fun k => ent x k i) (fun k => ent x k j).
  Proof.
    intros N cols x Hx HN. pose proof Hx as (Hl & _).
    set (X := map (fun v : rvec => map (fun a => a - mean v) v) (transpose cols x)).
    assert (HX : shape cols N X).
    { unfold X. split; [rewrite map_length, transpose_len; auto|]. apply Forall_map.
      destruct (transpose_shape solve cols N x Hl) as (_ & HF). eapply Forall_impl; [|exact HF].
      intros v Hv; rewrite map_length; auto. }
    assert (HXe : forall i k, (i < cols)%nat -> (k < N)%nat -> nth k (nth i X []) 0 = ent x k i - smean N (fun k => ent x k i)).
    { intros i k Hi Hk. unfold X. rewrite (map_nth_lt _ _ _ ([] : rvec)) by (rewrite transpose_len; auto).
      rewrite transpose_nth by auto. rewrite (map_nth_lt _ _ _ 0) by (rewrite column_len; lia).
      rewrite column_nth by lia. f_equal. apply mean_smean; [rewrite column_len; auto|]. intros; apply column_nth; lia. }
    change (cov cols x) with (map (fun u : rvec => map (fun v : rvec => Rdot u v * (1 / IZR (Z.of_nat (length x - 1)))) X) X).
    split.
    - split; [rewrite map_length; apply HX|]. apply Forall_map, Forall_forall. intros. rewrite map_length. apply HX.
    - intros i j Hi Hj. destruct HX as (HX1 & HX2). unfold ent at 1.
      rewrite (map_nth_lt _ _ _ ([] : rvec)) by lia. rewrite (map_nth_lt _ _ _ ([] : rvec)) by lia.
      rewrite Forall_nth in HX2.
      rewrite (Rdot_sumn N) by (apply HX2; lia). unfold scov.
      rewrite (sumn_ext N _ (fun k => (ent x k i - smean N (fun k => ent x k i)) * (ent x k j - smean N (fun k => ent x k j)))).
      2:{ intros k Hk. rewrite !HXe by auto. reflexivity. }
      rewrite Hl, <- INR_IZR_INZ, minus_INR by lia. simpl (INR 1). unfold Rdiv; ring.
  Qed.

  (** ** components *)
  Theorem C37_components : forall cols x values vectors, cols <> 1%nat ->
    eig (cov cols x) = Some (values, vectors) ->
    exists l, PCA_components eig argsort cols x = Ok l /\ Permutation l values /\ descending_list l.
  Proof.
    intros cols x values vectors Hc He. unfold PCA_components, eig_cov.
    destruct (Nat.eqb_spec cols 1); [contradiction|]. rewrite He. cbn [rmap].
    eexists; split; [reflexivity|]. split; [apply (pick_perm solve); auto|apply (pick_descending solve); auto].
  Qed.

  (** number of features asked for by a request n; None and 0 mean one less than there are *)
  Definition effective_n (cols : nat) (n : option Z) : Z :=
    match n with
    | None => (Z.of_nat cols - 1)%Z
    | Some z => if (z =? 0)%Z then (Z.of_nat cols - 1)%Z else z
    end.

  (** ... of which this many are kept; a negative request drops that many of the least important
      features (Python slicing), a request below -cols keeps none *)
  Definition kept (cols : nat) (n : option Z) : nat :=
    let e := effective_n cols n in
    Z.to_nat (if (e <? 0)%Z then Z.of_nat cols + e else e).

  Theorem C37_rejected : forall cols x n,
    PCA eig argsort cols x n = Err AssertionError <-> (Z.of_nat cols <= effective_n cols n)%Z.
  Proof.
    intros cols x n. unfold PCA. change (features cols n) with (effective_n cols n).
    destruct (Z.leb_spec (Z.of_nat cols) (effective_n cols n)) as [H|H]; split; intros H'; auto; try lia.
    exfalso. unfold eig_cov in H'. destruct (Nat.eqb_spec cols 1); [discriminate|].
    destruct (eig (cov cols x)) as [[? ?]|]; discriminate.
  Qed.
  Corollary C37_all_columns_rejected : forall cols x, (0 < cols)%nat ->
    PCA eig argsort cols x (Some (Z.of_nat cols)) = Err AssertionError.
  Proof.
    intros cols x H. apply C37_rejected. unfold effective_n. destruct (Z.eqb_spec (Z.of_nat cols) 0); lia.
  Qed.
  (** a single column can not be decomposed *)
  Theorem C37_single_column : forall x n, PCA eig argsort 1 x n = Err LinAlgError \/ PCA eig argsort 1 x n = Err AssertionError.
  Proof. intros x n. unfold PCA. destruct (_ <=? _)%Z; auto. Qed.

  Section Output.
    Variables (N cols : nat) (x : rmat) (n : option Z) (values : rvec) (V : rmat).
    Hypothesis Hx : shape N cols x.
    Hypothesis Hn : (effective_n cols n < Z.of_nat cols)%Z.
    Hypothesis Hlv : length values = cols.
    Hypothesis HV : shape cols cols V.
    Let p (i : nat) : nat := nth i (descending argsort values) 0%nat.

    Lemma p_lt i : (i < cols)%nat -> (p i < cols)%nat.
    Proof. intros H. unfold p. rewrite <- Hlv. apply (descending_lt solve); auto. lia. Qed.

    Lemma kept_le : (kept cols n <= cols)%nat.
    Proof. unfold kept. destruct (Z.ltb_spec (effective_n cols n) 0); lia. Qed.

    Lemma project_out : let out := project argsort cols x (effective_n cols n) values V in
      shape N (kept cols n) out /\
      forall k i, (k < N)%nat -> (i < kept cols n)%nat ->
        ent out k i = sumn cols (fun j => ent V j (p i) * ent x k j).
    Proof.
      pose proof Hx as (Hl & _). pose proof HV as (HlV & _). intros out. unfold out.
      unfold project. rewrite Hl.
      set (m := kept cols n).
      set (ord := pick [] (transpose cols V) (descending argsort values)).
      assert (Hol : length ord = cols) by (unfold ord, pick; rewrite map_length, (descending_len solve); auto).
      set (top := slice_to ord (effective_n cols n)).
      assert (Htop : top = firstn m ord).
      { unfold top, m, kept, slice_to, slice_idx. rewrite Hol.
        destruct (Z.ltb_spec (effective_n cols n) 0); [reflexivity|]. rewrite Nat.min_r by lia. reflexivity. }
      pose proof kept_le as Hkl. fold m in Hkl.
      assert (Htl : length top = m) by (rewrite Htop, firstn_length, Hol; lia).
      assert (Hmm : length (mm N top (transpose cols x)) = m) by (unfold mm; rewrite map_length; auto).
      split; [apply (transpose_shape solve); auto|].
      intros k i Hk Hi. rewrite (transpose_ent solve) by lia. rewrite (mm_nth solve) by lia.
      assert (Hti : nth i top [] = column (p i) V).
      { rewrite Htop.
        assert (Hf : forall (l : rmat) a b, (a < b)%nat -> nth a (firstn b l) [] = nth a l []).
        { induction l as [|r l IH]; intros a b Hab; [rewrite firstn_nil; auto|].
          destruct b; [lia|]. destruct a; auto. simpl. apply IH; lia. }
        rewrite Hf by auto. unfold ord, pick. rewrite (map_nth_lt _ _ _ 0%nat) by (rewrite (descending_len solve); auto; lia).
        apply (transpose_nth solve). apply p_lt; lia. }
      rewrite Hti. rewrite (Rdot_sumn cols).
      2:{ rewrite (column_len solve); auto. }
      2:{ rewrite (column_len solve), (transpose_len solve); auto. }
      apply sumn_ext; intros j Hj. rewrite (column_nth solve) by lia.
      rewrite (column_nth solve) by (rewrite (transpose_len solve); auto).
      rewrite (transpose_ent solve) by lia. reflexivity.
    Qed.
    Hypothesis Hc : cols <> 1%nat.
    Hypothesis He : eig (cov cols x) = Some (values, V).
    Lemma PCA_out : exists out, PCA eig argsort cols x n = Ok out /\
      shape N (kept cols n) out /\
      forall k i, (k < N)%nat -> (i < kept cols n)%nat ->
        ent out k i = sumn cols (fun j => ent V j (p i) * ent x k j).
    Proof.
      unfold PCA. change (features cols n) with (effective_n cols n).
      destruct (Z.leb_spec (Z.of_nat cols) (effective_n cols n)) as [H|_]; [lia|].
      unfold eig_cov. destruct (Nat.eqb_spec cols 1); [contradiction|]. rewrite He. cbn [rmap].
      eexists; split; [reflexivity|]. exact project_out.
    Qed.
  End Output.

  (** for every sample the output has the requested number of features *)
  Theorem C37_shape : forall N cols x n values V, shape N cols x -> cols <> 1%nat ->
    (effective_n cols n < Z.of_nat cols)%Z ->
    eig (cov cols x) = Some (values, V) -> length values = cols -> shape cols cols V ->
    exists out, PCA eig argsort cols x n = Ok out /\ shape N (kept cols n) out.
  Proof.
    intros N cols x n values V Hx Hc Hn He Hlv HV.
    destruct (PCA_out N cols x n values V Hx Hn Hlv HV Hc He) as (out & H5 & H6 & _); eauto.
  Qed.

  (** column i of the output has the i-th largest eigenvalue as its sample variance; columns that
      belong to different eigenvalues are uncorrelated *)
  Theorem C37_variances : forall N cols x n values V, shape N cols x -> (2 <= N)%nat -> cols <> 1%nat ->
    (effective_n cols n < Z.of_nat cols)%Z ->
    eig (cov cols x) = Some (values, V) ->
    unit_eigensystem cols (fun i j => scov N (fun k => ent x k i) (fun k => ent x k j)) values V ->
    exists out comps, PCA eig argsort cols x n = Ok out /\ PCA_components eig argsort cols x = Ok comps /\
      forall i, (i < kept cols n)%nat ->
        scov N (fun k => ent out k i) (fun k => ent out k i) = nth i comps 0 /\
        forall j, (j < kept cols n)%nat -> nth i comps 0 <> nth j comps 0 ->
          scov N (fun k => ent out k i) (fun k => ent out k j) = 0.
  Proof.
    intros N cols x n values V Hx HN Hc Hn He (Hlv & HV & HE).
    destruct (PCA_out N cols x n values V Hx Hn Hlv HV Hc He) as (out & H1 & H2 & H3).
    exists out, (pick 0 values (descending argsort values)). split; auto. split.
    { unfold PCA_components, eig_cov. destruct (Nat.eqb_spec cols 1); [contradiction|]. rewrite He. reflexivity. }
    set (m := kept cols n) in *.
    assert (Hm : (m <= cols)%nat) by (unfold m; eapply kept_le; eauto).
    set (p := fun i => nth i (descending argsort values) 0%nat) in *.
    set (C := fun i j => scov N (fun k => ent x k i) (fun k => ent x k j)) in *.
    assert (Hp : forall i, (i < m)%nat -> (p i < cols)%nat).
    { intros i Hi. unfold p. rewrite <- Hlv. apply (descending_lt solve); auto; lia. }
    assert (Hsc : forall i j, (i < m)%nat -> (j < m)%nat ->
       scov N (fun k => ent out k i) (fun k => ent out k j)
       = nth (p j) values 0 * sumn cols (fun a => ent V a (p i) * ent V a (p j))).
    { intros i j Hi Hj.
      transitivity (scov N (fun k => sumn cols (fun j0 => ent V j0 (p i) * ent x k j0)) (fun k => sumn cols (fun j0 => ent V j0 (p j) * ent x k j0))).
      - unfold scov, smean. f_equal.
        rewrite (sumn_ext N (fun k => ent out k i) (fun k => sumn cols (fun j0 => ent V j0 (p i) * ent x k j0))) by (intros; apply H3; auto).
        rewrite (sumn_ext N (fun k => ent out k j) (fun k => sumn cols (fun j0 => ent V j0 (p j) * ent x k j0))) by (intros; apply H3; auto).
        apply sumn_ext; intros k Hk. rewrite !H3 by auto. reflexivity.
      - rewrite (scov_comb N cols (fun j0 => ent V j0 (p i)) (fun j0 => ent V j0 (p j)) (fun k j0 => ent x k j0)).
        rewrite <- sumn_scal. apply sumn_ext; intros a Ha.
        rewrite (sumn_ext cols _ (fun b => ent V a (p i) * (C a b * ent V b (p j)))) by (intros; unfold C; ring).
        rewrite sumn_scal. destruct (HE (p j) (Hp j Hj)) as (_ & HE').
        transitivity (ent V a (p i) * (nth (p j) values 0 * ent V a (p j))); [f_equal; exact (HE' a Ha)|ring]. }
    assert (Hsym : forall f g, scov N f g = scov N g f).
    { intros f g; unfold scov; f_equal; apply sumn_ext; intros; ring. }
    intros i Hi. rewrite !(pick_nth solve) by (auto; lia). fold (p i). split.
    - rewrite Hsc by auto. destruct (HE (p i) (Hp i Hi)) as (HE' & _). rewrite HE'. ring.
    - intros j Hj. rewrite !(pick_nth solve) by (auto; lia). fold (p j). intros Hne.
      pose proof (Hsc i j Hi Hj) as E1. pose proof (Hsc j i Hj Hi) as E2.
      rewrite (Hsym (fun k => ent out k j)) in E2.
      rewrite (sumn_ext cols (fun a => ent V a (p j) * ent V a (p i)) (fun a => ent V a (p i) * ent V a (p j))) in E2 by (intros; ring).
      rewrite E1 in E2 |- *. set (s := sumn cols _) in *.
      assert (Hz : (nth (p j) values 0 - nth (p i) values 0) * s = 0) by lra.
      apply Rmult_integral in Hz as [Hz|Hz]; [exfalso; apply Hne; lra|rewrite Hz; ring].
  Qed.

  Lemma p_surj (values : rvec) q : (q < length values)%nat ->
    exists l, (l < length values)%nat /\ nth l (descending argsort values) 0%nat = q.
  Proof.
    intros Hq. destruct (argsort_ok (map Ropp values)) as (H & _). rewrite map_length in H.
    assert (Hin : In q (descending argsort values)).
    { apply (Permutation_in _ (Permutation_sym H)), in_seq. lia. }
    apply (In_nth _ _ 0%nat) in Hin as (l & Hl & He). exists l. split; auto.
    rewrite (descending_len solve) in Hl; auto.
  Qed.

  (** in the orthogonal basis, the quadratic form of the covariance is a weighted sum of eigenvalues *)
  Lemma quadratic_form c (C : nat -> nat -> R) values V u : unit_eigensystem c C values V -> orthogonal_matrix c V ->
    let co q := sumn c (fun a => u a * ent V a q) in
    sumn c (fun a => sumn c (fun b => u a * u b * C a b)) = sumn c (fun q => nth q values 0 * (co q * co q)) /\
    sumn c (fun a => u a * u a) = sumn c (fun q => co q * co q).
  Proof.
    intros (Hlv & HV & HE) (_ & HO) co.
    assert (Hu : forall a, (a < c)%nat -> u a = sumn c (fun q => co q * ent V a q)).
    { intros a Ha. unfold co.
      rewrite (sumn_ext c _ (fun q => sumn c (fun b => u b * (ent V b q * ent V a q)))).
      2:{ intros q Hq. rewrite <- sumn_scal_r. apply sumn_ext; intros; ring. }
      rewrite sumn_swap. rewrite (sumn_ext c _ (fun b => (if Nat.eqb a b then 1 else 0) * u b)).
      - rewrite sumn_delta; auto.
      - intros b Hb. rewrite sumn_scal, HO by auto. rewrite Nat.eqb_sym. ring. }
    assert (Hdot : forall f : nat -> R, sumn c (fun a => u a * sumn c (fun q => f q * ent V a q)) = sumn c (fun q => f q * co q)).
    { intros f. rewrite (sumn_ext c _ (fun a => sumn c (fun q => f q * (u a * ent V a q)))).
      2:{ intros a Ha. rewrite <- sumn_scal. apply sumn_ext; intros; ring. }
      rewrite sumn_swap. apply sumn_ext; intros q Hq. rewrite sumn_scal. reflexivity. }
    split.
    - rewrite (sumn_ext c _ (fun a => u a * sumn c (fun q => (nth q values 0 * co q) * ent V a q))).
      + rewrite Hdot. apply sumn_ext; intros; ring.
      + intros a Ha. rewrite (sumn_ext c _ (fun b => u a * (C a b * u b))) by (intros; ring). rewrite sumn_scal. f_equal.
        rewrite (sumn_ext c _ (fun b => sumn c (fun q => co q * (C a b * ent V b q)))).
        * rewrite sumn_swap. apply sumn_ext; intros q Hq. rewrite sumn_scal.
          destruct (HE q Hq) as (_ & H). rewrite (H a Ha). ring.
        * intros b Hb. rewrite (Hu b Hb) at 1. rewrite <- sumn_scal. apply sumn_ext; intros; ring.
    - rewrite (sumn_ext c _ (fun a => u a * sumn c (fun q => co q * ent V a q))).
      + apply Hdot.
      + intros a Ha. rewrite <- Hu by auto. reflexivity.
  Qed.

  (** no unit direction orthogonal to the first i principal directions has a larger variance than the
      (i+1)-th principal component (i = 0: the first component has the largest variance of all) *)
  Theorem C37_maximal_variance : forall N cols x values V, shape N cols x -> cols <> 1%nat ->
    eig (cov cols x) = Some (values, V) ->
    unit_eigensystem cols (fun i j => scov N (fun k => ent x k i) (fun k => ent x k j)) values V ->
    orthogonal_matrix cols V ->
    exists comps dir, PCA_components eig argsort cols x = Ok comps /\
      (forall n out, (effective_n cols n < Z.of_nat cols)%Z -> PCA eig argsort cols x n = Ok out ->
         forall k i, (k < N)%nat -> (i < kept cols n)%nat -> ent out k i = sumn cols (fun j => dir i j * ent x k j)) /\
      forall i (u : nat -> R), (i < cols)%nat -> sumn cols (fun j => u j * u j) = 1 ->
        (forall l, (l < i)%nat -> sumn cols (fun j => u j * dir l j) = 0) ->
        scov N (fun k => sumn cols (fun j => u j * ent x k j)) (fun k => sumn cols (fun j => u j * ent x k j)) <= nth i comps 0.
  Proof.
    intros N cols x values V Hx Hc He HE HO. pose proof HE as (Hlv & HV & _).
    exists (pick 0 values (descending argsort values)), (fun i j => ent V j (nth i (descending argsort values) 0%nat)).
    split; [|split].
    - unfold PCA_components, eig_cov. destruct (Nat.eqb_spec cols 1); [contradiction|]. rewrite He. reflexivity.
    - intros n out Hn Ho k i Hk Hi.
      destruct (PCA_out N cols x n values V Hx Hn Hlv HV Hc He) as (out' & H1 & H2 & H3).
      rewrite H1 in Ho; injection Ho as <-. apply H3; auto.
    - intros i u Hi Hu Hort.
      rewrite (scov_comb N cols u u (fun k j => ent x k j)).
      destruct (quadratic_form cols _ values V u HE HO) as (Hq & Hn). cbv beta zeta in Hq, Hn. rewrite Hq.
      set (co := fun q => sumn cols (fun a => u a * ent V a q)) in *.
      change (sumn cols (fun q => nth q values 0 * (co q * co q)) <= nth i (pick 0 values (descending argsort values)) 0).
      change (sumn cols (fun a => u a * u a) = sumn cols (fun q => co q * co q)) in Hn.
      rewrite Hu in Hn.
      rewrite <- (Rmult_1_r (nth i _ 0)), Hn, <- sumn_scal. apply sumn_le. intros q Hq'.
      rewrite <- Hlv in Hq'. destruct (p_surj values q Hq') as (l & Hl & <-).
      destruct (Nat.lt_ge_cases l i) as [Hlt|Hge].
      + assert (Hz : co (nth l (descending argsort values) 0%nat) = 0) by (apply Hort; auto). rewrite Hz. lra.
      + apply Rmult_le_compat_r; [apply Rle_0_sqr|].
        rewrite <- (pick_nth solve argsort argsort_ok values l) by auto.
        apply (pick_descending solve argsort argsort_ok values).
        unfold pick; rewrite map_length, (descending_len solve) by auto. lia.
  Qed.

  Lemma Permutation_Rsum (l l' : rvec) : Permutation l l' -> Rsum l = Rsum l'.
  Proof. induction 1; simpl; lra. Qed.

  (** the components add up to the sum of the variances of the columns *)
  Theorem C37_total_variance : forall N cols x values V, shape N cols x -> cols <> 1%nat ->
    eig (cov cols x) = Some (values, V) ->
    unit_eigensystem cols (fun i j => scov N (fun k => ent x k i) (fun k => ent x k j)) values V ->
    orthogonal_matrix cols V ->
    exists comps, PCA_components eig argsort cols x = Ok comps /\
      Rsum comps = sumn cols (fun j => scov N (fun k => ent x k j) (fun k => ent x k j)).
  Proof.
    intros N cols x values V Hx Hc He HE HO.
    exists (pick 0 values (descending argsort values)). split.
    { unfold PCA_components, eig_cov. destruct (Nat.eqb_spec cols 1); [contradiction|]. rewrite He. reflexivity. }
    rewrite (Permutation_Rsum _ _ (pick_perm solve argsort argsort_ok values)).
    pose proof HE as (Hlv & HV & HE'). rewrite Rsum_sumn, Hlv.
    set (C := fun i j => scov N (fun k => ent x k i) (fun k => ent x k j)) in *.
    change (sumn cols (fun i => nth i values 0) = sumn cols (fun j => C j j)).
    (* C_jj = sum_q lambda_q V_jq^2 *)
    assert (HC : forall j, (j < cols)%nat -> C j j = sumn cols (fun q => nth q values 0 * (ent V j q * ent V j q))).
    { intros j Hj.
      rewrite <- (sumn_delta cols j (fun l => C j l)) by auto.
      destruct HO as (_ & HO).
      rewrite (sumn_ext cols _ (fun b => sumn cols (fun q => ent V j q * (C j b * ent V b q)))).
      - rewrite sumn_swap. apply sumn_ext; intros q Hq. rewrite sumn_scal.
        destruct (HE' q Hq) as (_ & H).
        transitivity (ent V j q * (nth q values 0 * ent V j q)); [f_equal; exact (H j Hj)|ring].
      - intros b Hb. rewrite <- HO by auto. rewrite <- sumn_scal_r. apply sumn_ext; intros; ring. }
    rewrite (sumn_ext cols (fun j => C j j) _ HC). rewrite sumn_swap. apply sumn_ext; intros q Hq.
    rewrite sumn_scal. destruct (HE' q Hq) as (H1 & _). rewrite H1. ring.
  Qed.
End PCA.

(** ** A concrete case: four points, eigenvalues not in order, a correct eigen-solver for it *)
Section Example37.
  Variable solve : list rvec -> list rvec -> option (list rvec).
  #[local] Hint Extern 0 (Num R) => exact (RNum solve) : typeclass_instances.
  Definition x37 : rmat := [[1; 0]; [-1; 0]; [0; 2]; [0; -2]].
  Definition V37 : rmat := [[1; 0]; [0; 1]].
  Definition eig37 (A : rmat) : option (rvec * rmat) := Some ([2/3; 8/3], V37).

  Lemma cov37 i j : (i < 2)%nat -> (j < 2)%nat ->
    scov 4 (fun k => ent x37 k i) (fun k => ent x37 k j) =
      if Nat.eqb i j then (if Nat.eqb i 0 then 2/3 else 8/3) else 0.
  Proof.
    intros Hi Hj. destruct i as [|[|i]]; [| |lia]; (destruct j as [|[|j]]; [| |lia]);
      unfold scov, smean, ent, x37; cbn [sumn nth INR Nat.eqb]; field.
  Qed.

  Example C37_hypotheses : shape 4 2 x37 /\ (2 <= 4)%nat /\ 2%nat <> 1%nat /\
    (effective_n 2 None < Z.of_nat 2)%Z /\ kept 2 None = 1%nat /\
    eig37 (cov 2 x37) = Some ([2/3; 8/3], V37) /\
    unit_eigensystem 2 (fun i j => scov 4 (fun k => ent x37 k i) (fun k => ent x37 k j)) [2/3; 8/3] V37 /\
    orthogonal_matrix 2 V37 /\ (forall v, sorting_indices v (insertion_argsort v)).
  Proof.
    split; [split; [reflexivity|repeat constructor]|].
    split; [lia|]. split; [lia|]. split; [simpl; lia|]. split; [reflexivity|]. split; [reflexivity|]. split; [|split].
    - split; [reflexivity|]. split; [split; [reflexivity|repeat constructor]|].
      intros i Hi. destruct i as [|[|i]]; [| |lia];
        (split; [unfold ent, V37; cbn [sumn nth]; ring|]);
        intros j Hj; cbn [sumn]; rewrite !cov37 by lia;
        (destruct j as [|[|j]]; [| |lia]); unfold ent, V37; cbn [nth Nat.eqb]; field.
    - split; intros i j Hi Hj; (destruct i as [|[|i]]; [| |lia]); (destruct j as [|[|j]]; [| |lia]);
        unfold ent, V37; cbn [sumn nth Nat.eqb]; ring.
    - apply insertion_argsort_ok.
  Qed.
End Example37.
