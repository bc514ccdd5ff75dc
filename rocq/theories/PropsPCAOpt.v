(** C76: what PCA keeps.  Real arithmetic. *)
From Coq Require Import Reals Lra Psatz Permutation.
From Verif Require Import Py Num Numpy StructProofs RVec RMat Preprocess PropsPCA PropsLDA.
Open Scope R_scope.

(** ** Specification *)
(** v(0), ..., v(m-1) are orthonormal vectors of length c *)
Definition frame (c m : nat) (v : nat -> nat -> R) : Prop :=
  forall i j, (i < m)%nat -> (j < m)%nat -> sumn c (fun k => v i k * v j k) = if Nat.eqb i j then 1 else 0.
(** coordinate of the sample [z] along [u] *)
Definition along (c : nat) (u z : nat -> R) : R := sumn c (fun j => u j * z j).
(** sample k with the column means removed *)
Definition centred (N : nat) (x : rmat) (k j : nat) : R := ent x k j - smean N (fun l => ent x l j).
(** the squared distance of z to its image under v: z -> sum_i (v_i . z) v_i *)
Definition loss (c m : nat) (v : nat -> nat -> R) (z : nat -> R) : R :=
  sumn c (fun j => (z j - sumn m (fun i => along c (v i) z * v i j)) * (z j - sumn m (fun i => along c (v i) z * v i j))).
Definition variance (N : nat) (f : nat -> R) : R := scov N f f.

(** ** Orthonormal vectors *)
Lemma along_comm c u z : along c u z = along c z u.
Proof. apply sumn_ext; intros; ring. Qed.
Lemma along_sum c m a (v : nat -> nat -> R) z : along c z (fun j => sumn m (fun i => a i * v i j)) = sumn m (fun i => a i * along c (v i) z).
Proof.
  unfold along. rewrite (sumn_ext c _ (fun j => sumn m (fun i => a i * (v i j * z j)))).
  2:{ intros j _. rewrite <- sumn_scal. apply sumn_ext; intros; ring. }
  rewrite sumn_swap. apply sumn_ext; intros i _. apply sumn_scal.
Qed.
Lemma frame_sum c m v a : frame c m v -> forall i, (i < m)%nat -> along c (v i) (fun j => sumn m (fun l => a l * v l j)) = a i.
Proof.
  intros HF i Hi. rewrite along_sum. rewrite (sumn_ext m _ (fun l => (if Nat.eqb i l then 1 else 0) * a l)).
  - apply (sumn_delta m i a Hi).
  - intros l Hl. unfold along. rewrite (HF l i Hl Hi), Nat.eqb_sym. ring.
Qed.
Lemma loss_eq c m v z : frame c m v -> loss c m v z = along c z z - sumn m (fun i => along c (v i) z * along c (v i) z).
Proof.
  intros HF. set (a := fun i => along c (v i) z). set (s := fun j => sumn m (fun i => a i * v i j)).
  assert (E1 : along c z s = sumn m (fun i => a i * a i)) by apply along_sum.
  assert (E2 : along c s s = sumn m (fun i => a i * a i)).
  { unfold s at 2. rewrite along_sum. apply sumn_ext; intros i Hi. f_equal. apply (frame_sum c m v a HF i Hi). }
  change (sumn c (fun j => (z j - s j) * (z j - s j)) = along c z z - sumn m (fun i => a i * a i)).
  rewrite (sumn_ext c _ (fun j => (z j * z j - z j * s j) - (z j * s j - s j * s j))) by (intros; ring).
  rewrite !sumn_minus. change (along c z z - along c z s - (along c z s - along c s s) = along c z z - sumn m (fun i => a i * a i)).
  rewrite E1, E2. ring.
Qed.
Lemma loss_nonneg c m v z : 0 <= loss c m v z.
Proof. apply sumn_nonneg. intros j _. apply Rle_0_sqr. Qed.
Lemma bessel c m v z : frame c m v -> sumn m (fun i => along c (v i) z * along c (v i) z) <= along c z z.
Proof. intros HF. pose proof (loss_nonneg c m v z). rewrite (loss_eq c m v z HF) in H. lra. Qed.

Definition basis (k j : nat) : R := if Nat.eqb k j then 1 else 0.
Lemma along_basis c k u : (k < c)%nat -> along c u (basis k) = u k.
Proof. intros Hk. rewrite along_comm. unfold along, basis. apply (sumn_delta c k u Hk). Qed.
Lemma sumn_const n a : sumn n (fun _ => a) = INR n * a.
Proof. induction n as [|n IH]; [simpl; ring|]. rewrite S_INR. cbn [sumn]. rewrite IH. ring. Qed.

(** c orthonormal vectors of length c span everything *)
Lemma frame_complete c D : frame c c D -> forall k l, (k < c)%nat -> (l < c)%nat ->
  sumn c (fun i => D i k * D i l) = if Nat.eqb k l then 1 else 0.
Proof.
  intros HF.
  assert (HL : forall k, (k < c)%nat -> loss c c D (basis k) = 1 - sumn c (fun i => D i k * D i k)).
  { intros k Hk. rewrite (loss_eq c c D _ HF). rewrite (along_basis c k _ Hk).
    unfold basis at 1. rewrite Nat.eqb_refl. f_equal. apply sumn_ext; intros i _. rewrite (along_basis c k _ Hk). reflexivity. }
  assert (HT : sumn c (fun k => loss c c D (basis k)) = 0).
  { rewrite (sumn_ext c _ (fun k => 1 - sumn c (fun i => D i k * D i k))) by (intros; apply HL; auto).
    rewrite sumn_minus, sumn_const, sumn_swap.
    rewrite (sumn_ext c (fun i => sumn c (fun k => D i k * D i k)) (fun _ => 1)).
    - rewrite sumn_const. ring.
    - intros i Hi. rewrite (HF i i Hi Hi), Nat.eqb_refl. reflexivity. }
  assert (HZ : forall k, (k < c)%nat -> loss c c D (basis k) = 0).
  { assert (G : forall n f, (forall i, (i < n)%nat -> 0 <= f i) -> sumn n f = 0 -> forall i, (i < n)%nat -> f i = 0).
    { induction n as [|n IH]; intros f Hf Hs i Hi; [lia|]. cbn [sumn] in Hs.
      pose proof (Hf n ltac:(lia)). assert (0 <= sumn n f) by (apply sumn_nonneg; intros; apply Hf; lia).
      destruct (Nat.eq_dec i n) as [->|]; [lra|]. apply IH; [intros; apply Hf; lia|lra|lia]. }
    apply (G c (fun k => loss c c D (basis k))); [intros; apply loss_nonneg|exact HT]. }
  intros k l Hk Hl. pose proof (sumn_sq_zero c _ (HZ k Hk) l Hl) as H. cbv beta in H.
  rewrite (sumn_ext c _ (fun i => D i k * D i l)) in H by (intros i Hi; rewrite (along_basis c k _ Hk); reflexivity).
  unfold basis in H. lra.
Qed.
Lemma frame_expand c D u : frame c c D -> forall a, (a < c)%nat -> u a = sumn c (fun q => along c (D q) u * D q a).
Proof.
  intros HF a Ha. unfold along.
  rewrite (sumn_ext c _ (fun q => sumn c (fun b => u b * (D q b * D q a)))).
  2:{ intros q _. rewrite <- sumn_scal_r. apply sumn_ext; intros; ring. }
  rewrite sumn_swap. rewrite (sumn_ext c _ (fun b => (if Nat.eqb a b then 1 else 0) * u b)).
  - rewrite (sumn_delta c a u Ha). reflexivity.
  - intros b Hb. rewrite sumn_scal, (frame_complete c D HF b a Hb Ha), Nat.eqb_sym. ring.
Qed.
Lemma parseval c D u : frame c c D -> along c u u = sumn c (fun q => along c (D q) u * along c (D q) u).
Proof.
  intros HF. transitivity (along c u (fun j => sumn c (fun q => along c (D q) u * D q j))).
  - apply sumn_ext; intros j Hj. f_equal. apply frame_expand; auto.
  - apply along_sum.
Qed.

(** ** The largest sum of variances *)
Section KyFan.
  Variables (c : nat) (C D : nat -> nat -> R) (lam : nat -> R).
  Hypothesis HD : frame c c D.
  Hypothesis HE : forall i j, (i < c)%nat -> (j < c)%nat -> sumn c (fun k => C j k * D i k) = lam i * D i j.
  Hypothesis Hlam : forall a b, (a <= b < c)%nat -> lam b <= lam a.

  Lemma form_spectral u : sumn c (fun a => sumn c (fun b => u a * u b * C a b)) =
    sumn c (fun q => lam q * (along c (D q) u * along c (D q) u)).
  Proof.
    set (co := fun q => along c (D q) u).
    assert (H1 : forall a, (a < c)%nat -> sumn c (fun b => C a b * u b) = sumn c (fun q => (lam q * co q) * D q a)).
    { intros a Ha. rewrite (sumn_ext c _ (fun b => sumn c (fun q => co q * (C a b * D q b)))).
      - rewrite sumn_swap. apply sumn_ext; intros q Hq. rewrite sumn_scal, HE by auto. ring.
      - intros b Hb. rewrite (frame_expand c D u HD b Hb) at 1. rewrite <- sumn_scal. apply sumn_ext; intros; unfold co; ring. }
    transitivity (along c u (fun a => sumn c (fun q => (lam q * co q) * D q a))).
    - apply sumn_ext; intros a Ha. rewrite <- H1 by auto. rewrite <- sumn_scal. apply sumn_ext; intros; ring.
    - rewrite along_sum. apply sumn_ext; intros q _. unfold co. ring.
  Qed.

  Lemma weights_top m (w : nat -> R) : (m <= c)%nat -> (forall q, (q < c)%nat -> 0 <= w q <= 1) -> sumn c w = INR m ->
    sumn c (fun q => lam q * w q) <= sumn m lam.
  Proof.
    intros Hm Hw Hs. destruct (Nat.eq_dec m c) as [->|Hne].
    { (* all weights are 1 *)
      assert (Z : sumn c (fun q => 1 - w q) = 0) by (rewrite sumn_minus, sumn_const, Hs; ring).
      assert (G : forall n f, (forall i, (i < n)%nat -> 0 <= f i) -> sumn n f = 0 -> forall i, (i < n)%nat -> f i = 0).
      { induction n as [|n IH]; intros f Hf Hs' i Hi; [lia|]. cbn [sumn] in Hs'.
        pose proof (Hf n ltac:(lia)). assert (0 <= sumn n f) by (apply sumn_nonneg; intros; apply Hf; lia).
        destruct (Nat.eq_dec i n) as [->|]; [lra|]. apply IH; [intros; apply Hf; lia|lra|lia]. }
      right. apply sumn_ext. intros q Hq.
      assert (1 - w q = 0) by (apply (G c (fun q => 1 - w q)); [intros i Hi; pose proof (Hw i Hi); lra|exact Z|exact Hq]).
      replace (w q) with 1 by lra. ring. }
    assert (Hpart : forall n f g, (m <= n)%nat -> sumn n (fun q => if Nat.ltb q m then f q else g q) =
      sumn m f + (sumn n g - sumn m g)).
    { intros n f g. induction n as [|n IH]; intros H.
      - assert (m = 0)%nat by lia. subst m. simpl. ring.
      - cbn [sumn]. destruct (Nat.eq_dec m (S n)) as [->|].
        + rewrite (sumn_ext n (fun q => if Nat.ltb q (S n) then f q else g q) f).
          2:{ intros i Hi. destruct (Nat.ltb_spec i (S n)); [reflexivity|lia]. }
          destruct (Nat.ltb_spec n (S n)); [|lia]. cbn [sumn]. ring.
        + rewrite IH by lia. destruct (Nat.ltb_spec n m); [lia|]. ring. }
    assert (H : sumn c (fun q => (lam q - lam m) * w q) <= sumn c (fun q => if Nat.ltb q m then lam q - lam m else 0)).
    { apply sumn_le. intros q Hq. pose proof (Hw q Hq). destruct (Nat.ltb_spec q m) as [H1|H1].
      - pose proof (Hlam q m ltac:(lia)). nra.
      - pose proof (Hlam m q ltac:(lia)). nra. }
    rewrite (Hpart c (fun q => lam q - lam m) (fun _ => 0) Hm), !sumn_0 in H.
    rewrite sumn_minus, sumn_const in H.
    rewrite (sumn_ext c (fun q => (lam q - lam m) * w q) (fun q => lam q * w q - lam m * w q)) in H by (intros; ring).
    rewrite sumn_minus, sumn_scal, Hs in H. lra.
  Qed.

  Lemma ky_fan m v : (m <= c)%nat -> frame c m v ->
    sumn m (fun i => sumn c (fun a => sumn c (fun b => v i a * v i b * C a b))) <= sumn m lam.
  Proof.
    intros Hm HF.
    rewrite (sumn_ext m _ (fun i => sumn c (fun q => lam q * (along c (D q) (v i) * along c (D q) (v i))))) by (intros; apply form_spectral).
    rewrite sumn_swap.
    rewrite (sumn_ext c _ (fun q => lam q * sumn m (fun i => along c (D q) (v i) * along c (D q) (v i)))) by (intros; apply sumn_scal).
    apply weights_top; [exact Hm| |].
    - intros q Hq. split; [apply sumn_nonneg; intros; apply Rle_0_sqr|].
      pose proof (bessel c m v (D q) HF) as H. unfold along at 3 in H. rewrite (HD q q Hq Hq), Nat.eqb_refl in H.
      rewrite (sumn_ext m _ (fun i => along c (v i) (D q) * along c (v i) (D q))); [exact H|].
      intros i _. rewrite (along_comm c (D q)). reflexivity.
    - rewrite sumn_swap. rewrite (sumn_ext m _ (fun _ => 1)); [rewrite sumn_const; ring|].
      intros i Hi. rewrite <- (parseval c D (v i) HD). unfold along. rewrite (HF i i Hi Hi), Nat.eqb_refl. reflexivity.
  Qed.
End KyFan.

(** ** PCA *)
Section PCA.
  Variable solve : list rvec -> list rvec -> option (list rvec).
  #[local] Hint Extern 0 (Num R) => exact (RNum solve) : typeclass_instances.
  Variable eig : rmat -> option (rvec * rmat).
  Variable argsort : rvec -> list nat.
  Hypothesis argsort_ok : forall v, sorting_indices v (argsort v).

  (** what is asked of np.linalg.eig: unit eigenvectors of the covariance matrix in the columns of V, belonging to different
      eigenvalues or else orthogonal *)
  Definition eigen_ok (N cols : nat) (x : rmat) (values : rvec) (V : rmat) : Prop :=
    unit_eigensystem cols (fun i j => scov N (fun k => ent x k i) (fun k => ent x k j)) values V /\
    (NoDup values \/ forall i j, (i < cols)%nat -> (j < cols)%nat -> i <> j -> sumn cols (fun k => ent V k i * ent V k j) = 0).

  Lemma scov_sym N f g : scov N f g = scov N g f.
  Proof. unfold scov; f_equal; apply sumn_ext; intros; ring. Qed.

  Lemma eigen_frame N cols x values V : eigen_ok N cols x values V -> frame cols cols (fun i j => ent V j i).
  Proof.
    intros ((Hlv & HV & HE) & Hd) i j Hi Hj. destruct (Nat.eqb_spec i j) as [->|Hne]; [apply (HE j Hj)|].
    destruct Hd as [Hd|Hd]; [|apply Hd; auto].
    set (C := fun i j => scov N (fun k => ent x k i) (fun k => ent x k j)) in *.
    assert (HC : forall a b, C a b = C b a) by (intros; apply scov_sym).
    assert (HE' : forall i, (i < cols)%nat -> forall j, (j < cols)%nat -> sumn cols (fun k => C j k * ent V k i) = nth i values 0 * ent V j i)
      by (intros q Hq; apply (HE q Hq)).
    pose proof (HE' i Hi) as Ei. pose proof (HE' j Hj) as Ej.
    set (s := sumn cols (fun k => ent V k i * ent V k j)).
    assert (E1 : sumn cols (fun a => ent V a j * sumn cols (fun b => C a b * ent V b i)) = nth i values 0 * s).
    { unfold s. rewrite <- sumn_scal. apply sumn_ext; intros a Ha. rewrite (Ei a Ha). ring. }
    assert (E2 : sumn cols (fun a => ent V a j * sumn cols (fun b => C a b * ent V b i)) = nth j values 0 * s).
    { rewrite (sumn_ext cols _ (fun a => sumn cols (fun b => ent V b i * (C b a * ent V a j)))).
      2:{ intros a Ha. rewrite <- sumn_scal. apply sumn_ext; intros b Hb. rewrite (HC a b). ring. }
      rewrite sumn_swap. unfold s. rewrite <- sumn_scal. apply sumn_ext; intros b Hb. rewrite sumn_scal, (Ej b Hb). ring. }
    assert (Hz : (nth i values 0 - nth j values 0) * s = 0) by lra.
    apply Rmult_integral in Hz as [Hz|Hz]; [|exact Hz]. exfalso. apply Hne.
    apply (proj1 (NoDup_nth values 0) Hd); lia || lra.
  Qed.

  (** *** C76.  Unit eigenvectors to different eigenvalues form an orthogonal matrix *)
  Theorem C76_orthogonal : forall N cols x values V, eigen_ok N cols x values V -> orthogonal_matrix cols V.
  Proof.
    intros N cols x values V H. pose proof (eigen_frame N cols x values V H) as HF. split; [exact HF|].
    intros i j Hi Hj. exact (frame_complete cols _ HF i j Hi Hj).
  Qed.

  Section Main.
    Variables (N cols : nat) (x : rmat) (n : option Z) (values : rvec) (V : rmat).
    Hypothesis Hx : shape N cols x.
    Hypothesis Hc : cols <> 1%nat.
    Hypothesis Hn : (effective_n cols n < Z.of_nat cols)%Z.
    Hypothesis He : eig (cov cols x) = Some (values, V).
    Hypothesis HE : eigen_ok N cols x values V.
    Let ord := descending argsort values.
    Let dir (i j : nat) : R := ent V j (nth i ord 0%nat).
    Let comp (i : nat) : R := nth (nth i ord 0%nat) values 0.
    Let m := kept cols n.

    Lemma len_values : length values = cols.
    Proof. clear Hc Hn m. apply HE. Qed.
    Lemma ord_lt i : (i < cols)%nat -> (nth i ord 0%nat < cols)%nat.
    Proof. clear Hc Hn m. intros H. rewrite <- len_values. apply (descending_lt solve); auto. rewrite len_values. exact H. Qed.
    Lemma ord_inj i j : (i < cols)%nat -> (j < cols)%nat -> nth i ord 0%nat = nth j ord 0%nat -> i = j.
    Proof. clear Hc Hn m.
      intros Hi Hj. assert (Hl : length ord = cols) by (unfold ord; rewrite (descending_len solve); auto; apply len_values).
      apply NoDup_nth; try lia. destruct (argsort_ok (map Ropp values)) as (H & _).
      apply (Permutation_NoDup (Permutation_sym H)), seq_NoDup.
    Qed.
    Lemma dir_frame : frame cols cols dir.
    Proof. clear Hc Hn m.
      intros i j Hi Hj. unfold dir. rewrite (eigen_frame N cols x values V HE _ _ (ord_lt i Hi) (ord_lt j Hj)).
      destruct (Nat.eqb_spec i j) as [->|Hne]; [rewrite Nat.eqb_refl; reflexivity|].
      destruct (Nat.eqb_spec (nth i ord 0%nat) (nth j ord 0%nat)) as [Heq|]; [|reflexivity].
      exfalso. apply Hne. exact (ord_inj i j Hi Hj Heq).
    Qed.
    Lemma m_le : (m <= cols)%nat.
    Proof. clear - Hn. unfold m, kept. destruct (Z.ltb_spec (effective_n cols n) 0); lia. Qed.
    Lemma dir_frame_m : frame cols m dir.
    Proof. clear Hc. intros i j Hi Hj. pose proof m_le. apply dir_frame; eapply Nat.lt_le_trans; eauto. Qed.
    Lemma dir_eigen i j : (i < cols)%nat -> (j < cols)%nat ->
      sumn cols (fun k => scov N (fun l => ent x l j) (fun l => ent x l k) * dir i k) = comp i * dir i j.
    Proof. clear Hc Hn m. intros Hi Hj. destruct HE as ((_ & _ & H) & _). apply (H _ (ord_lt i Hi)); auto. Qed.
    Lemma comp_desc a b : (a <= b < cols)%nat -> comp b <= comp a.
    Proof. clear Hc Hn m.
      intros Hab. unfold comp, ord. rewrite <- !(pick_nth solve argsort argsort_ok values) by (rewrite len_values; lia).
      apply (pick_descending solve argsort argsort_ok values). unfold pick. rewrite map_length, (descending_len solve), len_values by auto. lia.
    Qed.
    Lemma out_eq : exists out, PCA eig argsort cols x n = Ok out /\ shape N m out /\
      forall k i, (k < N)%nat -> (i < m)%nat -> ent out k i = along cols (dir i) (ent x k).
    Proof. apply (PCA_out solve eig argsort argsort_ok N cols x n values V Hx Hn); auto; apply HE. Qed.

    Lemma var_along u : variance N (fun k => along cols u (ent x k)) =
      sumn cols (fun a => sumn cols (fun b => u a * u b * scov N (fun k => ent x k a) (fun k => ent x k b))).
    Proof. clear Hc Hn He HE m comp dir ord. apply (scov_comb N cols u u (fun k j => ent x k j)). Qed.
    Lemma variance_ext f g : (forall k, (k < N)%nat -> f k = g k) -> variance N f = variance N g.
    Proof. clear Hc Hn He HE m comp dir ord.
      intros H. unfold variance, scov, smean. rewrite (sumn_ext N f g H). f_equal. apply sumn_ext; intros k Hk. rewrite (H k Hk). reflexivity.
    Qed.
    Lemma var_dir i : (i < cols)%nat -> variance N (fun k => along cols (dir i) (ent x k)) = comp i.
    Proof. clear Hc Hn m.
      intros Hi. rewrite var_along.
      rewrite (sumn_ext cols _ (fun a => comp i * (dir i a * dir i a))).
      - rewrite sumn_scal, (dir_frame i i Hi Hi), Nat.eqb_refl. ring.
      - intros a Ha. rewrite (sumn_ext cols _ (fun b => dir i a * (scov N (fun l => ent x l a) (fun l => ent x l b) * dir i b))) by (intros; ring).
        rewrite sumn_scal, (dir_eigen i a Hi Ha). ring.
    Qed.

    Lemma most v : frame cols m v ->
      sumn m (fun i => variance N (fun k => along cols (v i) (ent x k))) <=
      sumn m (fun i => variance N (fun k => along cols (dir i) (ent x k))).
    Proof. clear Hc.
      intros Hv. pose proof m_le.
      rewrite (sumn_ext m (fun i => variance N (fun k => along cols (dir i) (ent x k))) comp) by (intros; apply var_dir; lia).
      rewrite (sumn_ext m _ _ (fun i _ => var_along (v i))).
      apply (ky_fan cols (fun i j => scov N (fun k => ent x k i) (fun k => ent x k j)) dir comp dir_frame); auto.
      - intros i j Hi Hj. apply dir_eigen; auto.
      - apply comp_desc.
    Qed.

    (** total loss = total energy minus kept energy *)
    Lemma along_centred u k : (0 < N)%nat -> along cols u (centred N x k) =
      along cols u (ent x k) - smean N (fun l => along cols u (ent x l)).
    Proof. clear Hc Hn He HE m comp dir ord.
      intros HN. unfold along, centred. rewrite (sumn_ext cols _ (fun j => u j * ent x k j - u j * smean N (fun l => ent x l j))) by (intros; ring).
      rewrite sumn_minus. f_equal. symmetry. apply (smean_comb N cols u (fun k j => ent x k j)).
    Qed.
    Lemma total_loss p v : (2 <= N)%nat -> frame cols p v ->
      sumn N (fun k => loss cols p v (centred N x k)) =
      sumn N (fun k => along cols (centred N x k) (centred N x k)) -
      (INR N - 1) * sumn p (fun i => variance N (fun k => along cols (v i) (ent x k))).
    Proof. clear Hc Hn He HE m comp dir ord.
      intros HN Hv. assert (HN1 : INR N - 1 <> 0). { apply le_INR in HN. simpl in HN. lra. }
      rewrite (sumn_ext N _ _ (fun k _ => loss_eq cols p v (centred N x k) Hv)). rewrite sumn_minus. f_equal.
      rewrite sumn_swap, <- sumn_scal. apply sumn_ext; intros i _. unfold variance, scov.
      rewrite (sumn_ext N _ (fun k => (along cols (v i) (ent x k) - smean N (fun k => along cols (v i) (ent x k))) *
        (along cols (v i) (ent x k) - smean N (fun k => along cols (v i) (ent x k))))).
      - field. exact HN1.
      - intros k _. rewrite (along_centred (v i) k) by lia. reflexivity.
    Qed.
  End Main.

  (** The columns of PCA(x, n) are the coordinates of the samples along orthonormal directions, and no choice of as many
      orthonormal directions keeps a larger sum of variances *)
  Theorem C76_most_variance : forall N cols x n values V, shape N cols x -> cols <> 1%nat ->
    (effective_n cols n < Z.of_nat cols)%Z -> eig (cov cols x) = Some (values, V) -> eigen_ok N cols x values V ->
    let m := kept cols n in
    exists out dir, PCA eig argsort cols x n = Ok out /\ shape N m out /\ frame cols m dir /\
      (forall k i, (k < N)%nat -> (i < m)%nat -> ent out k i = along cols (dir i) (ent x k)) /\
      forall v, frame cols m v ->
        sumn m (fun i => variance N (fun k => along cols (v i) (ent x k))) <= sumn m (fun i => variance N (fun k => ent out k i)).
  Proof.
    intros N cols x n values V Hx Hc Hn He HE m.
    destruct (out_eq N cols x n values V Hx Hc Hn He HE) as (out & H1 & H2 & H3).
    eexists out, _. split; [exact H1|]. split; [exact H2|]. split; [exact (dir_frame_m N cols x n values V Hn HE)|].
    split; [exact H3|]. intros v Hv. eapply Rle_trans; [apply (most N cols x n values V Hn HE v Hv)|].
    right. apply sumn_ext. intros i Hi. apply variance_ext. intros k Hk. symmetry. apply H3; auto.
  Qed.

  (** The samples (about their mean) are best approximated, in the sum of squared distances, from the directions of PCA:
      what is lost is N-1 times the sum of the dropped components *)
  Theorem C76_best_approximation : forall N cols x n values V, shape N cols x -> cols <> 1%nat -> (2 <= N)%nat ->
    (effective_n cols n < Z.of_nat cols)%Z -> eig (cov cols x) = Some (values, V) -> eigen_ok N cols x values V ->
    let m := kept cols n in
    exists out dir comps, PCA eig argsort cols x n = Ok out /\ PCA_components eig argsort cols x = Ok comps /\ frame cols m dir /\
      (forall k i, (k < N)%nat -> (i < m)%nat -> ent out k i = along cols (dir i) (ent x k)) /\
      sumn N (fun k => loss cols m dir (centred N x k)) = (INR N - 1) * (sumn cols (fun i => nth i comps 0) - sumn m (fun i => nth i comps 0)) /\
      forall v, frame cols m v ->
        sumn N (fun k => loss cols m dir (centred N x k)) <= sumn N (fun k => loss cols m v (centred N x k)).
  Proof.
    intros N cols x n values V Hx Hc HN Hn He HE m.
    destruct (out_eq N cols x n values V Hx Hc Hn He HE) as (out & H1 & H2 & H3).
    eexists out, (fun i j => ent V j (nth i (descending argsort values) 0%nat)), (pick 0 values (descending argsort values)).
    pose proof (len_values N cols x values V HE) as Hlv.
    pose proof (dir_frame_m N cols x n values V Hn HE) as Hm. pose proof (m_le cols n Hn) as Hle. fold m in Hle.
    pose proof (dir_frame N cols x values V HE) as Hall.
    assert (Hp : forall i, (i < cols)%nat -> nth i (pick 0 values (descending argsort values)) 0 =
      variance N (fun k => along cols (fun j => ent V j (nth i (descending argsort values) 0%nat)) (ent x k))).
    { intros i Hi. rewrite (pick_nth solve argsort argsort_ok values) by lia. symmetry. apply (var_dir N cols x values V HE i Hi). }
    split; [exact H1|]. split.
    { unfold PCA_components, eig_cov. destruct (Nat.eqb_spec cols 1); [contradiction|]. rewrite He. reflexivity. }
    split; [exact Hm|]. split; [exact H3|]. split.
    - rewrite (total_loss N cols x m _ HN Hm).
      assert (HA : sumn N (fun k => loss cols cols (fun i j => ent V j (nth i (descending argsort values) 0%nat)) (centred N x k)) = 0).
      { rewrite (sumn_ext N _ (fun _ => 0)); [apply sumn_0|]. intros k _. rewrite (loss_eq _ _ _ _ Hall), <- (parseval cols _ _ Hall). ring. }
      rewrite (total_loss N cols x cols _ HN Hall) in HA.
      rewrite (sumn_ext m _ _ (fun i Hi => Hp i (Nat.lt_le_trans _ _ _ Hi Hle))), (sumn_ext cols _ _ Hp). lra.
    - intros v Hv. rewrite (total_loss N cols x m _ HN Hm), (total_loss N cols x m v HN Hv).
      pose proof (most N cols x n values V Hn HE v Hv) as H. fold m in H.
      assert (0 <= INR N - 1) by (apply le_INR in HN; simpl in HN; lra).
      apply Rplus_le_compat_l, Ropp_le_contravar, Rmult_le_compat_l; [assumption|exact H].
  Qed.

  (** Samples never get farther apart *)
  Theorem C76_distances : forall N cols x n values V, shape N cols x -> cols <> 1%nat ->
    (effective_n cols n < Z.of_nat cols)%Z -> eig (cov cols x) = Some (values, V) -> eigen_ok N cols x values V ->
    exists out, PCA eig argsort cols x n = Ok out /\
      forall k l, (k < N)%nat -> (l < N)%nat ->
        sumn (kept cols n) (fun i => (ent out k i - ent out l i) * (ent out k i - ent out l i)) <=
        sumn cols (fun j => (ent x k j - ent x l j) * (ent x k j - ent x l j)).
  Proof.
    intros N cols x n values V Hx Hc Hn He HE.
    destruct (out_eq N cols x n values V Hx Hc Hn He HE) as (out & H1 & H2 & H3). exists out. split; [exact H1|].
    intros k l Hk Hl. pose proof (bessel cols _ _ (fun j => ent x k j - ent x l j) (dir_frame_m N cols x n values V Hn HE)) as HB.
    eapply Rle_trans; [|exact HB]. right. apply sumn_ext. intros i Hi. rewrite !H3 by auto.
    assert (E : forall u, along cols u (fun j => ent x k j - ent x l j) = along cols u (ent x k) - along cols u (ent x l)).
    { intros u. unfold along. rewrite <- sumn_minus. apply sumn_ext; intros; ring. }
    rewrite E. reflexivity.
  Qed.
End PCA.

(** the hypotheses are met by the data of C37 *)
Section Example76.
  Variable solve : list rvec -> list rvec -> option (list rvec).
  #[local] Hint Extern 0 (Num R) => exact (RNum solve) : typeclass_instances.
  Example C76_hypotheses : shape 4 2 x37 /\ (2 <= 4)%nat /\ kept 2 None = 1%nat /\ (effective_n 2 None < Z.of_nat 2)%Z /\
    eig37 (cov 2 x37) = Some ([2/3; 8/3], V37) /\ eigen_ok 4 2 x37 [2/3; 8/3] V37 /\ NoDup [2/3; 8/3] /\
    (forall v, sorting_indices v (insertion_argsort v)) /\
    (* another direction: half of the larger and half of the smaller variance *)
    frame 2 1 (fun _ _ => sqrt 2 / 2).
  Proof.
    destruct (C37_hypotheses solve) as (H1 & H2 & _ & H4 & H5 & H6 & H7 & _ & H9).
    assert (ND : NoDup [2/3; 8/3]).
    { constructor; [intros [H|[]]; lra|]. constructor; [intros []|constructor]. }
    split; [exact H1|]. split; [exact H2|]. split; [exact H5|]. split; [exact H4|]. split; [exact H6|].
    split; [split; [exact H7|left; exact ND]|]. split; [exact ND|]. split; [exact H9|].
    intros i j Hi Hj. replace i with 0%nat by lia. replace j with 0%nat by lia. cbn [sumn Nat.eqb].
    assert (sqrt 2 * sqrt 2 = 2) by (apply sqrt_sqrt; lra). lra.
  Qed.
End Example76.
