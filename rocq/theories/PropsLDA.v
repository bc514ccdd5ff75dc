(** Property C38: LDA, LDA_discriminants. *)
From Coq Require Import Reals Lra Psatz Permutation.
From Verif Require Import Py Num Numpy StructProofs RVec RMat Preprocess PropsPCA.
Open Scope R_scope.

(** ** Specification: N samples with labels lab 0 .. lab (N-1), a feature is a function of the sample index *)
Section Spec38.
  Context {L : Type}.
  Variable eqb : L -> L -> bool.
  Variables (N : nat) (lab : nat -> L).
  Definition ind (b : bool) (r : R) : R := if b then r else 0.
  Definition csize (c : L) : R := sumn N (fun k => ind (eqb (lab k) c) 1).
  Definition cmean (f : nat -> R) (c : L) : R := sumn N (fun k => ind (eqb (lab k) c) (f k)) / csize c.
  (** scatter of the samples about the mean of their class, of the class means (one per sample) about
      the total mean, of the samples about the total mean *)
  Definition within (f g : nat -> R) : R := sumn N (fun k => (f k - cmean f (lab k)) * (g k - cmean g (lab k))).
  Definition between (f g : nat -> R) : R :=
    sumn N (fun k => (cmean f (lab k) - smean N f) * (cmean g (lab k) - smean N g)).
  Definition total (f g : nat -> R) : R := sumn N (fun k => (f k - smean N f) * (g k - smean N g)).
End Spec38.

(** l enumerates the distinct labels, in any order (what tuple(set(labels)) is) *)
Definition enumerates {L} (labels l : list L) : Prop := NoDup l /\ forall c, In c l <-> In c labels.

Definition inverse_matrix (c : nat) (A B : rmat) : Prop :=
  shape c c B /\ forall i j, (i < c)%nat -> (j < c)%nat ->
    sumn c (fun k => ent A i k * ent B k j) = (if Nat.eqb i j then 1 else 0) /\
    sumn c (fun k => ent B i k * ent A k j) = (if Nat.eqb i j then 1 else 0).

(** column i of V is an eigenvector of A to the i-th value *)
Definition eigensystem (c : nat) (A : rmat) (values : rvec) (V : rmat) : Prop :=
  length values = c /\ shape c c V /\
  forall i, (i < c)%nat -> (exists k, (k < c)%nat /\ ent V k i <> 0) /\
    forall j, (j < c)%nat -> sumn c (fun k => ent A j k * ent V k i) = nth i values 0 * ent V j i.

(** ** Class-wise sums *)
Section Classes.
  Context {L : Type}.
  Variable eqb : L -> L -> bool.
  Hypothesis eqb_ok : forall a b, eqb a b = true <-> a = b.

  Lemma sumn_Rsum_swap {A} N (F : A -> nat -> R) (l : list A) :
    Rsum (map (fun c => sumn N (F c)) l) = sumn N (fun k => Rsum (map (fun c => F c k) l)).
  Proof.
    induction l as [|c l IH]; cbn [map Rsum]; [rewrite sumn_0; reflexivity|]. rewrite IH, <- sumn_plus. reflexivity.
  Qed.
  Lemma pick_class (F : L -> R) l a : NoDup l -> In a l -> Rsum (map (fun c => ind (eqb a c) (F c)) l) = F a.
  Proof.
    induction l as [|c l IH]; intros HN Hin; [destruct Hin|]. cbn [map Rsum]. inversion HN as [|? ? Hnot HN']; subst.
    assert (Hz : ~ In a l -> Rsum (map (fun c => ind (eqb a c) (F c)) l) = 0).
    { clear - eqb_ok. intros H. induction l as [|c l IH]; cbn [map Rsum]; auto. rewrite IH by (intros H'; apply H; right; auto).
      destruct (eqb a c) eqn:E; simpl; [|ring]. apply eqb_ok in E. exfalso; apply H; left; auto. }
    destruct (eqb a c) eqn:E; simpl.
    - apply eqb_ok in E; subst c. rewrite Hz by auto. ring.
    - destruct Hin as [->|Hin]; [assert (eqb a a = true) by (apply eqb_ok; auto); congruence|]. rewrite IH; auto. ring.
  Qed.
  Lemma class_sum N (lab : nat -> L) l (F : L -> nat -> R) : NoDup l -> (forall k, (k < N)%nat -> In (lab k) l) ->
    Rsum (map (fun c => sumn N (fun k => ind (eqb (lab k) c) (F c k))) l) = sumn N (fun k => F (lab k) k).
  Proof.
    intros HN Hin. rewrite sumn_Rsum_swap. apply sumn_ext; intros k Hk. apply (pick_class (fun c => F c k)); auto.
  Qed.

  Lemma csize_pos N (lab : nat -> L) k : (k < N)%nat -> 0 < csize eqb N lab (lab k).
  Proof.
    intros Hk. unfold csize. apply Rlt_le_trans with 1; [lra|].
    apply Rle_trans with (sumn N (fun j => (if Nat.eqb k j then 1 else 0) * 1)); [rewrite (sumn_delta N k (fun _ => 1) Hk); lra|].
    apply sumn_le. intros j Hj.
    destruct (Nat.eqb_spec k j) as [->|_].
    - assert (E : eqb (lab j) (lab j) = true) by (apply eqb_ok; auto). rewrite E; simpl; lra.
    - destruct (eqb _ _); simpl; lra.
  Qed.
  Lemma sumn_ind_scal N (b : nat -> bool) (f : nat -> R) c :
    sumn N (fun k => ind (b k) (c * f k)) = c * sumn N (fun k => ind (b k) (f k)).
  Proof. rewrite <- sumn_scal. apply sumn_ext; intros k _. destruct (b k); simpl; ring. Qed.

  (** deviations from the class mean sum to zero, also weighted by any function of the class *)
  Lemma class_residuals N (lab : nat -> L) l (f : nat -> R) (h : L -> R) :
    NoDup l -> (forall k, (k < N)%nat -> In (lab k) l) ->
    sumn N (fun k => (f k - cmean eqb N lab f (lab k)) * h (lab k)) = 0.
  Proof.
    intros HN Hin.
    rewrite <- (class_sum N lab l (fun c k => (f k - cmean eqb N lab f c) * h c)) by auto.
    transitivity (Rsum (map (fun _ : L => 0) l)).
    2:{ clear. induction l; cbn [map Rsum]; [|rewrite IHl]; ring. }
    f_equal. apply map_ext; intros c.
    transitivity (h c * sumn N (fun k => ind (eqb (lab k) c) (f k) - cmean eqb N lab f c * ind (eqb (lab k) c) 1)).
    { rewrite <- sumn_scal. apply sumn_ext; intros k _. destruct (eqb (lab k) c); simpl; ring. }
    rewrite sumn_minus, sumn_scal. fold (csize eqb N lab c). unfold cmean.
    destruct (Req_dec (csize eqb N lab c) 0) as [Hz|Hz].
    - (* empty class *)
      assert (Hno : forall k, (k < N)%nat -> eqb (lab k) c = false).
      { intros k Hk. destruct (eqb (lab k) c) eqn:E; auto. apply eqb_ok in E.
        pose proof (csize_pos N lab k Hk). rewrite E in *. lra. }
      rewrite (sumn_ext N _ (fun _ => 0)) by (intros k Hk; rewrite Hno; auto). rewrite sumn_0, Hz. ring.
    - field; auto.
  Qed.

  (** within + between = total *)
  Lemma scatter_decomposition N (lab : nat -> L) l f g : NoDup l -> (forall k, (k < N)%nat -> In (lab k) l) ->
    within eqb N lab f g + between eqb N lab f g = total N f g.
  Proof.
    intros HN Hin. unfold within, between, total.
    pose proof (class_residuals N lab l f (fun c => cmean eqb N lab g c - smean N g) HN Hin) as H1.
    pose proof (class_residuals N lab l g (fun c => cmean eqb N lab f c - smean N f) HN Hin) as H2.
    cbv beta in H1, H2.
    rewrite <- sumn_plus.
    transitivity (sumn N (fun k => (f k - smean N f) * (g k - smean N g))
                  - (sumn N (fun k => (f k - cmean eqb N lab f (lab k)) * (cmean eqb N lab g (lab k) - smean N g))
                  + sumn N (fun k => (g k - cmean eqb N lab g (lab k)) * (cmean eqb N lab f (lab k) - smean N f)))).
    - rewrite <- sumn_plus, <- sumn_minus. apply sumn_ext; intros; ring.
    - rewrite H1, H2. ring.
  Qed.

  (** linear combinations of features *)
  Lemma cmean_comb N (lab : nat -> L) c a (X : nat -> nat -> R) cl :
    cmean eqb N lab (fun k => sumn c (fun j => a j * X k j)) cl = sumn c (fun j => a j * cmean eqb N lab (fun k => X k j) cl).
  Proof.
    unfold cmean. unfold Rdiv.
    rewrite (sumn_ext N _ (fun k => sumn c (fun j => a j * ind (eqb (lab k) cl) (X k j)))).
    - rewrite sumn_swap, <- sumn_scal_r. apply sumn_ext; intros j _. rewrite sumn_scal. ring.
    - intros k _. destruct (eqb (lab k) cl); simpl; auto. rewrite (sumn_ext c _ (fun _ => 0)) by (intros; ring). rewrite sumn_0; auto.
  Qed.
  Lemma bilinear_comb N c a b (P Q : nat -> nat -> R) :
    sumn N (fun k => sumn c (fun j => a j * P k j) * sumn c (fun j => b j * Q k j))
    = sumn c (fun i => sumn c (fun j => a i * b j * sumn N (fun k => P k i * Q k j))).
  Proof.
    rewrite (sumn_ext N _ (fun k => sumn c (fun i => sumn c (fun j => a i * b j * (P k i * Q k j))))).
    - rewrite sumn_swap. apply sumn_ext; intros i _. rewrite sumn_swap. apply sumn_ext; intros j _. rewrite sumn_scal; reflexivity.
    - intros k _. rewrite sumn_mul. apply sumn_ext; intros i _. apply sumn_ext; intros j _. ring.
  Qed.
  Lemma within_comb N (lab : nat -> L) c a b (X : nat -> nat -> R) :
    within eqb N lab (fun k => sumn c (fun j => a j * X k j)) (fun k => sumn c (fun j => b j * X k j))
    = sumn c (fun i => sumn c (fun j => a i * b j * within eqb N lab (fun k => X k i) (fun k => X k j))).
  Proof.
    unfold within.
    rewrite <- (bilinear_comb N c a b (fun k j => X k j - cmean eqb N lab (fun k => X k j) (lab k)) (fun k j => X k j - cmean eqb N lab (fun k => X k j) (lab k))).
    apply sumn_ext; intros k _. rewrite !cmean_comb, <- !sumn_minus. f_equal; apply sumn_ext; intros; ring.
  Qed.
  Lemma between_comb N (lab : nat -> L) c a b (X : nat -> nat -> R) :
    between eqb N lab (fun k => sumn c (fun j => a j * X k j)) (fun k => sumn c (fun j => b j * X k j))
    = sumn c (fun i => sumn c (fun j => a i * b j * between eqb N lab (fun k => X k i) (fun k => X k j))).
  Proof.
    unfold between.
    rewrite <- (bilinear_comb N c a b (fun k j => cmean eqb N lab (fun k => X k j) (lab k) - smean N (fun k => X k j)) (fun k j => cmean eqb N lab (fun k => X k j) (lab k) - smean N (fun k => X k j))).
    apply sumn_ext; intros k _. rewrite !cmean_comb, !smean_comb, <- !sumn_minus. f_equal; apply sumn_ext; intros; ring.
  Qed.
  Lemma within_nonneg N (lab : nat -> L) f : 0 <= within eqb N lab f f.
  Proof. apply sumn_nonneg. intros; apply Rle_0_sqr. Qed.
  Lemma between_nonneg N (lab : nat -> L) f : 0 <= between eqb N lab f f.
  Proof. apply sumn_nonneg. intros; apply Rle_0_sqr. Qed.
  Lemma sumn_sq_zero N f : sumn N (fun k => f k * f k) = 0 -> forall k, (k < N)%nat -> f k = 0.
  Proof.
    induction N as [|n IH]; intros H k Hk; [lia|]. simpl in H.
    assert (0 <= sumn n (fun k => f k * f k)) by (apply sumn_nonneg; intros; apply Rle_0_sqr).
    pose proof (Rle_0_sqr (f n)) as Hs; unfold Rsqr in Hs.
    destruct (Nat.eq_dec k n) as [->|]; [|apply IH; [lra|lia]].
    assert (E : f n * f n = 0) by lra. apply Rmult_integral in E; tauto.
  Qed.
End Classes.

Section LDA.
  Variable solve : list rvec -> list rvec -> option (list rvec).
  #[local] Hint Extern 0 (Num R) => exact (RNum solve) : typeclass_instances.
  Context {L : Type}.
  Variable eqb : L -> L -> bool.
  Hypothesis eqb_ok : forall a b, eqb a b = true <-> a = b.

  (** selecting the rows of a class *)
  Lemma select_sum N (labels : list L) (x : rmat) d cl (f : rvec -> R) : length labels = N -> length x = N ->
    Rsum (map f (select eqb labels x cl)) = sumn N (fun k => ind (eqb (nth k labels d) cl) (f (nth k x []))).
  Proof.
    unfold select. revert labels x; induction N as [|N IH]; intros [|a labels] [|r x] H1 H2; simpl in H1, H2; try discriminate; auto.
    rewrite sumn_S_l. cbn [combine filter map fst snd nth].
    destruct (eqb a cl) eqn:E; cbn [map Rsum snd ind]; rewrite (IH labels x) by lia; reflexivity || ring.
  Qed.
  Lemma select_len N (labels : list L) (x : rmat) d cl : length labels = N -> length x = N ->
    INR (length (select eqb labels x cl)) = csize eqb N (fun k => nth k labels d) cl.
  Proof.
    intros H1 H2. unfold csize. rewrite <- (select_sum N labels x d cl (fun _ => 1)) by auto.
    generalize (select eqb labels x cl). clear. induction l as [|r l IH]; [reflexivity|].
    cbn [length map Rsum]. rewrite S_INR, IH. ring.
  Qed.
  Lemma select_in (labels : list L) (x : rmat) cl r : In r (select eqb labels x cl) -> In r x.
  Proof.
    unfold select. intros H. apply in_map_iff in H as ([a r'] & <- & H). apply filter_In in H as (H & _).
    apply in_combine_r in H. auto.
  Qed.

  Lemma mean0_nth c (A : rmat) i : (i < c)%nat -> nth i (mean0 c A) 0 = Rsum (map (fun r => nth i r 0) A) / INR (length A).
  Proof.
    intros H. unfold mean0. rewrite (map_nth_lt _ _ _ ([] : rvec)) by (rewrite (transpose_len solve); auto).
    rewrite (transpose_nth solve) by auto. unfold mean, nofnat. simpl.
    rewrite (column_len solve), INR_IZR_INZ. reflexivity.
  Qed.
  Lemma mean0_len c (A : rmat) : length (mean0 c A) = c.
  Proof. unfold mean0. rewrite map_length, (transpose_len solve); auto. Qed.

  (** sums of matrices *)
  Lemma msum_gen c l (Z : rmat) : shape c c Z -> Forall (shape c c) l ->
    shape c c (fold_left madd l Z) /\
    forall i j, (i < c)%nat -> (j < c)%nat -> ent (fold_left madd l Z) i j = ent Z i j + Rsum (map (fun A => ent A i j) l).
  Proof.
    revert Z; induction l as [|A l IH]; intros Z HZ HF; cbn [fold_left map Rsum].
    - split; auto. intros; ring.
    - inversion HF as [|? ? HA HF']; subst.
      assert (HM : shape c c (madd Z A)) by (unfold madd; apply map2m_shape; auto).
      destruct (IH (madd Z A) HM HF') as (H1 & H2). split; auto.
      intros i j Hi Hj. rewrite H2 by auto. unfold madd. rewrite (map2m_ent c c) by auto. simpl. ring.
  Qed.
  Lemma msum_ok c l : Forall (shape c c) l ->
    shape c c (msum c l) /\
    forall i j, (i < c)%nat -> (j < c)%nat -> ent (msum c l) i j = Rsum (map (fun A => ent A i j) l).
  Proof.
    intros HF. unfold msum. destruct (msum_gen c l (zeros2 c c)) as (H1 & H2); auto.
    - split; unfold zeros2; [apply repeat_length|]. apply Forall_forall. intros r Hr. apply repeat_spec in Hr; subst.
      apply repeat_length.
    - split; auto. intros i j Hi Hj. rewrite H2 by auto. unfold ent at 1, zeros2, zeros.
      assert (Hr : nth i (repeat (repeat (n0 : R) c) c) [] = repeat 0 c).
      { apply (repeat_spec c). apply nth_In. rewrite repeat_length; auto. }
      rewrite Hr. assert (Hs : nth j (repeat 0 c) 0 = 0) by (apply (repeat_spec c), nth_In; rewrite repeat_length; auto).
      rewrite Hs. ring.
  Qed.
  Lemma sq_outer_ok c (u v : rvec) : length u = c -> length v = c ->
    shape c c (sq_outer (map2 nsub u v)) /\
    forall i j, (i < c)%nat -> (j < c)%nat ->
      ent (sq_outer (map2 nsub u v)) i j = (nth i u 0 - nth i v 0) * (nth j u 0 - nth j v 0).
  Proof.
    intros Hu Hv. assert (Hd : length (vsub u v) = c) by (apply vsub_length; auto).
    change (map2 nsub u v) with (vsub u v). split.
    - unfold sq_outer. pose proof (outer_shape solve (vsub u v) (vsub u v)) as H. rewrite Hd in H. exact H.
    - intros i j Hi Hj. unfold ent, sq_outer, outer.
      rewrite (map_nth_lt _ _ _ 0) by lia. rewrite (map_nth_lt _ _ _ 0) by lia.
      rewrite !nth_vsub by congruence. reflexivity.
  Qed.

  Section Scatter.
    Variables (N cols : nat) (x : rmat) (labels : list L) (d : L) (classes : list L).
    Hypothesis Hx : shape N cols x.
    Hypothesis Hl : length labels = N.
    Hypothesis Hcl : enumerates labels classes.
    Let lab (k : nat) : L := nth k labels d.
    Let feat (i k : nat) : R := ent x k i.

    Lemma lab_in k : (k < N)%nat -> In (lab k) classes.
    Proof. intros Hk. apply Hcl. apply nth_In. lia. Qed.

    Lemma class_mean cl i : (i < cols)%nat -> nth i (mean0 cols (select eqb labels x cl)) 0 = cmean eqb N lab (feat i) cl.
    Proof.
      intros Hi. rewrite mean0_nth by auto. destruct Hx as (Hxl & _). unfold cmean. f_equal.
      - rewrite (select_sum N labels x d) by auto. reflexivity.
      - f_equal. apply select_len; auto.
    Qed.
    Lemma total_mean i : (i < cols)%nat -> nth i (mean0 cols x) 0 = smean N (feat i).
    Proof.
      intros Hi. rewrite mean0_nth by auto. destruct Hx as (Hxl & _). unfold smean. rewrite Hxl. f_equal.
      rewrite Rsum_sumn, map_length, Hxl. apply sumn_ext; intros k Hk.
      rewrite (map_nth_lt _ _ _ ([] : rvec)) by lia. reflexivity.
    Qed.
    Lemma row_len r : In r x -> length r = cols.
    Proof. destruct Hx as (_ & HF). rewrite Forall_forall in HF. apply HF. Qed.

    Lemma scatter_within_ok : shape cols cols (scatter_within eqb cols x labels classes) /\
      forall i j, (i < cols)%nat -> (j < cols)%nat ->
        ent (scatter_within eqb cols x labels classes) i j = within eqb N lab (feat i) (feat j).
    Proof.
      unfold scatter_within.
      assert (Hin : forall cl, Forall (shape cols cols) (map (fun row => sq_outer (map2 nsub row (mean0 cols (select eqb labels x cl)))) (select eqb labels x cl))).
      { intros cl. apply Forall_map, Forall_forall. intros r Hr. apply sq_outer_ok; [apply row_len; eapply select_in; eauto|apply mean0_len]. }
      match goal with |- context [msum cols (map ?F classes)] => set (G := F) end.
      assert (HF : Forall (shape cols cols) (map G classes)).
      { apply Forall_map, Forall_forall. intros cl _. apply (msum_ok cols _ (Hin cl)). }
      destruct (msum_ok cols _ HF) as (H1 & H2). split; auto.
      intros i j Hi Hj. rewrite H2 by auto. rewrite map_map. unfold within.
      rewrite <- (class_sum eqb eqb_ok N lab classes (fun c k => (feat i k - cmean eqb N lab (feat i) c) * (feat j k - cmean eqb N lab (feat j) c))).
      2:{ apply Hcl. } 2:{ intros; apply lab_in; auto. }
      f_equal. apply map_ext; intros cl. unfold G. destruct (msum_ok cols _ (Hin cl)) as (_ & H3). rewrite H3 by auto.
      rewrite map_map.
      transitivity (Rsum (map (fun r => (nth i r 0 - cmean eqb N lab (feat i) cl) * (nth j r 0 - cmean eqb N lab (feat j) cl)) (select eqb labels x cl))).
      - f_equal. apply map_ext_in. intros r Hr.
        destruct (sq_outer_ok cols r (mean0 cols (select eqb labels x cl))) as (_ & H4);
          [apply row_len; eapply select_in; eauto|apply mean0_len|].
        rewrite H4 by auto. rewrite !class_mean by auto. reflexivity.
      - rewrite (select_sum N labels x d cl) by (auto; apply Hx). reflexivity.
    Qed.

    Lemma scatter_between_ok : shape cols cols (scatter_between eqb cols x labels classes) /\
      forall i j, (i < cols)%nat -> (j < cols)%nat ->
        ent (scatter_between eqb cols x labels classes) i j = between eqb N lab (feat i) (feat j).
    Proof.
      unfold scatter_between.
      match goal with |- context [msum cols (map ?F classes)] => set (G := F) end.
      assert (HG : forall cl, shape cols cols (G cl) /\ forall i j, (i < cols)%nat -> (j < cols)%nat ->
          ent (G cl) i j = csize eqb N lab cl * ((cmean eqb N lab (feat i) cl - smean N (feat i)) * (cmean eqb N lab (feat j) cl - smean N (feat j)))).
      { intros cl. unfold G.
        destruct (sq_outer_ok cols (mean0 cols (select eqb labels x cl)) (mean0 cols x)) as (H3 & H4); try apply mean0_len.
        split; [apply mscale_shape; auto|]. intros i j Hi Hj. unfold ent, mscale.
        rewrite (map_nth_lt _ _ _ ([] : rvec)) by (destruct H3; lia).
        unfold vscale. rewrite (map_nth_lt _ _ _ 0) by (rewrite (shape_row cols cols) by auto; auto).
        unfold ent in H4. rewrite H4 by auto. rewrite !class_mean, !total_mean by auto.
        unfold nofnat. simpl. rewrite <- INR_IZR_INZ. f_equal. apply select_len; auto. apply Hx. }
      assert (HF : Forall (shape cols cols) (map G classes)).
      { apply Forall_map, Forall_forall. intros cl _. apply HG. }
      destruct (msum_ok cols _ HF) as (H1 & H2). split; auto.
      intros i j Hi Hj. rewrite H2 by auto. rewrite map_map. unfold between.
      rewrite <- (class_sum eqb eqb_ok N lab classes (fun c k => (cmean eqb N lab (feat i) c - smean N (feat i)) * (cmean eqb N lab (feat j) c - smean N (feat j)))).
      2:{ apply Hcl. } 2:{ intros; apply lab_in; auto. }
      f_equal. apply map_ext; intros cl. destruct (HG cl) as (_ & H3). rewrite H3 by auto. unfold csize.
      rewrite <- sumn_scal_r. apply sumn_ext; intros k _. destruct (eqb (lab k) cl); simpl; ring.
    Qed.
  End Scatter.

  (** the two scatter matrices the code computes, entry by entry, and their sum *)
  Theorem C38_scatter : forall N cols x labels d classes, shape N cols x -> length labels = N -> enumerates labels classes ->
    let lab k := nth k labels d in let col i k := ent x k i in
    forall i j, (i < cols)%nat -> (j < cols)%nat ->
      ent (scatter_within eqb cols x labels classes) i j = within eqb N lab (col i) (col j) /\
      ent (scatter_between eqb cols x labels classes) i j = between eqb N lab (col i) (col j) /\
      ent (scatter_within eqb cols x labels classes) i j + ent (scatter_between eqb cols x labels classes) i j
        = total N (col i) (col j).
  Proof.
    intros N cols x labels d classes Hx Hl Hc lab col i j Hi Hj.
    destruct (scatter_within_ok N cols x labels d classes Hx Hl Hc) as (_ & HW).
    destruct (scatter_between_ok N cols x labels d classes Hx Hl Hc) as (_ & HB).
    rewrite HW, HB by auto. split; [reflexivity|]. split; [reflexivity|].
    apply (scatter_decomposition eqb eqb_ok N _ classes); [apply Hc|]. intros k Hk. apply Hc, nth_In. lia.
  Qed.

  Variable eig : rmat -> option (rvec * rmat).
  Variable argsort : rvec -> list nat.
  Variable inv : rmat -> option rmat.
  Hypothesis argsort_ok : forall v, sorting_indices v (argsort v).

  (** the result does not depend on the order in which the set of labels is enumerated *)
  Theorem C38_class_order : forall so1 so2 N cols x labels n, shape N cols x ->
    enumerates labels (so1 labels) -> enumerates labels (so2 labels) ->
    LDA eig argsort eqb so1 inv cols x labels n = LDA eig argsort eqb so2 inv cols x labels n /\
    LDA_discriminants eig argsort eqb so1 inv cols x labels = LDA_discriminants eig argsort eqb so2 inv cols x labels.
  Proof.
    intros so1 so2 N cols x labels n Hx H1 H2.
    assert (Hb : LDA_base eig eqb so1 inv cols x labels = LDA_base eig eqb so2 inv cols x labels).
    { unfold LDA_base. destruct (Nat.eqb_spec (length labels) (length x)) as [Hl|Hl]; cbn [negb]; [|reflexivity].
      assert (HlN : length labels = N) by (destruct Hx; congruence).
      destruct labels as [|d labels'] eqn:El.
      - assert (E1 : so1 [] = []) by (destruct (so1 []) as [|a l] eqn:E; auto; destruct H1 as (_ & H1); destruct (proj1 (H1 a) (or_introl eq_refl))).
        assert (E2 : so2 [] = []) by (destruct (so2 []) as [|a l] eqn:E; auto; destruct H2 as (_ & H2); destruct (proj1 (H2 a) (or_introl eq_refl))).
        rewrite E1, E2. reflexivity.
      - rewrite <- El in *.
        destruct (scatter_within_ok N cols x labels d (so1 labels) Hx HlN H1) as (W1 & W2).
        destruct (scatter_within_ok N cols x labels d (so2 labels) Hx HlN H2) as (W3 & W4).
        destruct (scatter_between_ok N cols x labels d (so1 labels) Hx HlN H1) as (B1 & B2).
        destruct (scatter_between_ok N cols x labels d (so2 labels) Hx HlN H2) as (B3 & B4).
        assert (EW : scatter_within eqb cols x labels (so1 labels) = scatter_within eqb cols x labels (so2 labels)).
        { apply (ent_ext cols cols); auto. intros i j Hi Hj. rewrite W2, W4 by auto. reflexivity. }
        assert (EB : scatter_between eqb cols x labels (so1 labels) = scatter_between eqb cols x labels (so2 labels)).
        { apply (ent_ext cols cols); auto. intros i j Hi Hj. rewrite B2, B4 by auto. reflexivity. }
        rewrite EW, EB. reflexivity. }
    unfold LDA, LDA_discriminants. rewrite Hb. auto.
  Qed.

  Variable set_order : list L -> list L.
  Hypothesis set_order_ok : forall l, enumerates l (set_order l).

  Theorem C38_discriminants : forall cols x labels values V, length labels = length x ->
    LDA_base eig eqb set_order inv cols x labels = Ok (values, V) ->
    exists l, LDA_discriminants eig argsort eqb set_order inv cols x labels = Ok l /\ Permutation l values /\ descending_list l.
  Proof.
    intros cols x labels values V Hl Hb. unfold LDA_discriminants. rewrite Hb. cbn [rmap].
    eexists; split; [reflexivity|]. split; [apply (pick_perm solve); auto|apply (pick_descending solve); auto].
  Qed.

  Theorem C38_rejected : forall cols x labels n,
    (LDA eig argsort eqb set_order inv cols x labels n = Err AssertionError <-> (Z.of_nat cols <= effective_n cols n)%Z) /\
    ((effective_n cols n < Z.of_nat cols)%Z -> length labels <> length x ->
       LDA eig argsort eqb set_order inv cols x labels n = Err IndexError).
  Proof.
    intros cols x labels n. unfold LDA. change (features cols n) with (effective_n cols n).
    destruct (Z.leb_spec (Z.of_nat cols) (effective_n cols n)) as [H|H].
    - split; [tauto|lia].
    - split.
      + split; [|lia]. intros H'. exfalso. unfold LDA_base in H'. destruct (Nat.eqb _ _); cbn [negb] in H'; [|discriminate].
        destruct (inv _); [|discriminate]. destruct (eig _) as [[? ?]|]; discriminate.
      + intros _ Hne. unfold LDA_base. destruct (Nat.eqb_spec (length labels) (length x)); [contradiction|reflexivity].
  Qed.

  (** With a correct matrix inverse and eigen-solver: output column i separates the classes exactly
      as the i-th largest discriminant says (between-class scatter = discriminant * within-class
      scatter), and the discriminants are non-negative, in descending order. *)
  Theorem C38_fisher : forall N cols x labels d n si values V, shape N cols x -> length labels = N ->
    (effective_n cols n < Z.of_nat cols)%Z ->
    let Sw := scatter_within eqb cols x labels (set_order labels) in
    let Sb := scatter_between eqb cols x labels (set_order labels) in
    inv Sw = Some si -> inverse_matrix cols Sw si ->
    eig (mm cols si Sb) = Some (values, V) -> eigensystem cols (mm cols si Sb) values V ->
    exists out disc, LDA eig argsort eqb set_order inv cols x labels n = Ok out /\
      LDA_discriminants eig argsort eqb set_order inv cols x labels = Ok disc /\
      shape N (kept cols n) out /\ descending_list disc /\ length disc = cols /\
      (forall i, (i < cols)%nat -> 0 <= nth i disc 0) /\
      forall i, (i < kept cols n)%nat ->
        let z k := ent out k i in let lab k := nth k labels d in
        0 < within eqb N lab z z /\ between eqb N lab z z = nth i disc 0 * within eqb N lab z z.
  Proof.
    intros N cols x labels d n si values V Hx Hl Hn Sw Sb Hi Hinv He (Hlv & HV & HE).
    pose proof Hx as (Hxl & _). destruct Hinv as (Hsi & Hinv).
    destruct (scatter_within_ok N cols x labels d (set_order labels) Hx Hl (set_order_ok labels)) as (W1 & W2).
    destruct (scatter_between_ok N cols x labels d (set_order labels) Hx Hl (set_order_ok labels)) as (B1 & B2).
    fold Sw in W1, W2. fold Sb in B1, B2. cbv beta in W2, B2.
    set (lab := fun k => nth k labels d).
    assert (Hb : LDA_base eig eqb set_order inv cols x labels = Ok (values, V)).
    { unfold LDA_base. destruct (Nat.eqb_spec (length labels) (length x)); [|congruence]. cbn [negb].
      fold Sw. rewrite Hi. fold Sb. rewrite He. reflexivity. }
    (* eigenvector q: scatter of the projected data *)
    assert (Hkey : forall q, (q < cols)%nat -> let z k := sumn cols (fun j => ent V j q * ent x k j) in
        0 < within eqb N lab z z /\ between eqb N lab z z = nth q values 0 * within eqb N lab z z /\ 0 <= nth q values 0).
    { intros q Hq z. destruct (HE q Hq) as ((k0 & Hk0 & Hne) & HEq).
      (* Sb v = lambda Sw v *)
      assert (Hgen : forall a, (a < cols)%nat -> sumn cols (fun b => ent Sb a b * ent V b q) = nth q values 0 * sumn cols (fun b => ent Sw a b * ent V b q)).
      { intros a Ha.
        assert (Hmmv : forall b, (b < cols)%nat -> sumn cols (fun c => ent si b c * sumn cols (fun e => ent Sb c e * ent V e q)) = nth q values 0 * ent V b q).
        { intros b Hb'. rewrite <- HEq by auto. rewrite (sumn_ext cols _ (fun c => sumn cols (fun e => ent si b c * (ent Sb c e * ent V e q)))) by (intros; rewrite sumn_scal; reflexivity).
          rewrite sumn_swap. apply sumn_ext; intros e He'. rewrite (mm_nth solve) by (auto; destruct Hsi; lia).
          rewrite (Rdot_sumn cols).
          2:{ apply (shape_row cols cols); auto. } 2:{ rewrite (column_len solve); apply B1. }
          rewrite <- sumn_scal_r. apply sumn_ext; intros c Hc. rewrite (column_nth solve) by (destruct B1; lia).
          unfold ent. ring. }
        transitivity (sumn cols (fun b => ent Sw a b * (nth q values 0 * ent V b q))).
        2:{ rewrite <- sumn_scal. apply sumn_ext; intros; ring. }
        rewrite (sumn_ext cols (fun b => ent Sw a b * (nth q values 0 * ent V b q))
                  (fun b => sumn cols (fun c => (ent Sw a b * ent si b c) * sumn cols (fun e => ent Sb c e * ent V e q)))).
        2:{ intros b Hb'. rewrite <- Hmmv by auto. rewrite <- sumn_scal. apply sumn_ext; intros; ring. }
        rewrite sumn_swap.
        rewrite <- (sumn_delta cols a (fun c => sumn cols (fun e => ent Sb c e * ent V e q))) by auto.
        apply sumn_ext; intros c Hc. rewrite sumn_scal_r. destruct (Hinv a c Ha Hc) as (HI & _). rewrite HI. reflexivity. }
      assert (HW : within eqb N lab z z = sumn cols (fun a => ent V a q * sumn cols (fun b => ent Sw a b * ent V b q))).
      { unfold z. rewrite (within_comb eqb N lab cols (fun j => ent V j q) (fun j => ent V j q) (fun k j => ent x k j)).
        apply sumn_ext; intros a Ha. rewrite <- sumn_scal. apply sumn_ext; intros b Hb'. rewrite W2 by auto. fold lab. ring. }
      assert (HB : between eqb N lab z z = sumn cols (fun a => ent V a q * sumn cols (fun b => ent Sb a b * ent V b q))).
      { unfold z. rewrite (between_comb eqb N lab cols (fun j => ent V j q) (fun j => ent V j q) (fun k j => ent x k j)).
        apply sumn_ext; intros a Ha. rewrite <- sumn_scal. apply sumn_ext; intros b Hb'. rewrite B2 by auto. fold lab. ring. }
      assert (Hrat : between eqb N lab z z = nth q values 0 * within eqb N lab z z).
      { rewrite HB, HW, <- sumn_scal. apply sumn_ext; intros a Ha. rewrite Hgen by auto. ring. }
      assert (Hpos : 0 < within eqb N lab z z).
      { destruct (within_nonneg eqb N lab z) as [H|H]; auto. exfalso. symmetry in H.
        pose proof (sumn_sq_zero N (fun k => z k - cmean eqb N lab z (lab k)) H) as Hz.
        (* then Sw v = 0 *)
        assert (Hv0 : forall a, (a < cols)%nat -> sumn cols (fun b => ent Sw a b * ent V b q) = 0).
        { intros a Ha.
          transitivity (sumn N (fun k => (ent x k a - cmean eqb N lab (fun k => ent x k a) (lab k)) * (z k - cmean eqb N lab z (lab k)))).
          - rewrite (sumn_ext cols _ (fun b => sumn N (fun k => (ent x k a - cmean eqb N lab (fun k => ent x k a) (lab k)) * (ent V b q * (ent x k b - cmean eqb N lab (fun k => ent x k b) (lab k)))))).
            + rewrite sumn_swap. apply sumn_ext; intros k Hk. rewrite sumn_scal. f_equal.
              unfold z. rewrite (cmean_comb eqb N lab cols (fun j => ent V j q) (fun k j => ent x k j)), <- sumn_minus.
              apply sumn_ext; intros; ring.
            + intros b Hb'. rewrite W2 by auto. fold lab. unfold within. rewrite <- sumn_scal_r. apply sumn_ext; intros; ring.
          - rewrite <- (sumn_0 N). apply sumn_ext; intros k Hk. rewrite (Hz k Hk). ring. }
        apply Hne.
        rewrite <- (sumn_delta cols k0 (fun b => ent V b q)) by auto.
        rewrite (sumn_ext cols _ (fun b => sumn cols (fun c => ent si k0 c * (ent Sw c b * ent V b q)))).
        - rewrite sumn_swap. rewrite <- (sumn_0 cols). apply sumn_ext; intros c Hc. rewrite sumn_scal, Hv0 by auto. ring.
        - intros b Hb'. destruct (Hinv k0 b Hk0 Hb') as (_ & HI). rewrite <- HI, <- sumn_scal_r. apply sumn_ext; intros; ring. }
      split; auto. split; auto.
      destruct (Rle_lt_dec 0 (nth q values 0)) as [H|H]; auto. exfalso.
      pose proof (between_nonneg eqb N lab z). rewrite Hrat in *.
      assert (nth q values 0 * within eqb N lab z z < 0) by nra. lra. }
    destruct (project_out solve argsort argsort_ok N cols x n values V Hx Hn Hlv HV) as (P1 & P2).
    assert (Hkl : (kept cols n <= cols)%nat) by (unfold kept; destruct (Z.ltb_spec (effective_n cols n) 0); lia).
    exists (project argsort cols x (effective_n cols n) values V), (pick 0 values (descending argsort values)).
    assert (Hdl : length (pick 0 values (descending argsort values)) = cols).
    { unfold pick; rewrite map_length, (descending_len solve); auto. }
    split; [|split; [|split; [|split; [|split; [|split]]]]]; auto.
    - unfold LDA. change (features cols n) with (effective_n cols n).
      destruct (Z.leb_spec (Z.of_nat cols) (effective_n cols n)); [lia|]. rewrite Hb. reflexivity.
    - unfold LDA_discriminants. rewrite Hb. reflexivity.
    - apply (pick_descending solve); auto.
    - intros i Hi'. rewrite (pick_nth solve) by (auto; lia).
      apply Hkey. rewrite <- Hlv. apply (descending_lt solve); auto; lia.
    - intros i Hi' z lab'. set (q := nth i (descending argsort values) 0%nat).
      assert (Hq : (q < cols)%nat) by (unfold q; rewrite <- Hlv; apply (descending_lt solve); auto; lia).
      destruct (Hkey q Hq) as (K1 & K2 & _).
      assert (Hzz : forall k, (k < N)%nat -> z k = sumn cols (fun j => ent V j q * ent x k j)) by (intros; apply P2; auto).
      assert (Hcm : forall c, cmean eqb N lab z c = cmean eqb N lab (fun k => sumn cols (fun j => ent V j q * ent x k j)) c).
      { intros c. unfold cmean. f_equal. apply sumn_ext; intros k Hk. rewrite Hzz by auto. reflexivity. }
      assert (Hsm : smean N z = smean N (fun k => sumn cols (fun j => ent V j q * ent x k j))).
      { unfold smean. f_equal. apply sumn_ext; auto. }
      assert (Hw : within eqb N lab' z z = within eqb N lab (fun k => sumn cols (fun j => ent V j q * ent x k j)) (fun k => sumn cols (fun j => ent V j q * ent x k j))).
      { unfold within. apply sumn_ext; intros k Hk. fold lab. change lab' with lab. rewrite Hcm, Hzz by auto. reflexivity. }
      assert (Hbt : between eqb N lab' z z = between eqb N lab (fun k => sumn cols (fun j => ent V j q * ent x k j)) (fun k => sumn cols (fun j => ent V j q * ent x k j))).
      { unfold between. apply sumn_ext; intros k Hk. change lab' with lab. rewrite Hcm, Hsm by auto. reflexivity. }
      rewrite Hw, Hbt, (pick_nth solve) by (auto; lia). auto.
  Qed.
End LDA.

(** ** A concrete case: two classes of two points in the plane *)
Section Example38.
  Variable solve : list rvec -> list rvec -> option (list rvec).
  #[local] Hint Extern 0 (Num R) => exact (RNum solve) : typeclass_instances.
  Definition x38 : rmat := [[-1; 0]; [1; 0]; [4; 1]; [4; -1]].
  Definition lab38 : list bool := [true; true; false; false].
  Definition order38 (l : list bool) : list bool := nodup bool_dec l.
  Definition si38 : rmat := [[/2; 0]; [0; /2]].
  Definition V38 : rmat := [[0; 1]; [1; 0]].
  Definition inv38 (A : rmat) : option rmat := Some si38.
  Definition eig38 (A : rmat) : option (rvec * rmat) := Some ([0; 8], V38).

  Example C38_hypotheses : shape 4 2 x38 /\ length lab38 = 4%nat /\ (forall l, enumerates l (order38 l)) /\
    (forall a b, Bool.eqb a b = true <-> a = b) /\ (forall v, sorting_indices v (insertion_argsort v)) /\
    (effective_n 2 (Some 1%Z) < Z.of_nat 2)%Z /\ kept 2 (Some 1%Z) = 1%nat /\
    let Sw := scatter_within Bool.eqb 2 x38 lab38 (order38 lab38) in
    let Sb := scatter_between Bool.eqb 2 x38 lab38 (order38 lab38) in
    inv38 Sw = Some si38 /\ inverse_matrix 2 Sw si38 /\
    eig38 (mm 2 si38 Sb) = Some ([0; 8], V38) /\ eigensystem 2 (mm 2 si38 Sb) [0; 8] V38.
  Proof.
    assert (Hx : shape 4 2 x38) by (split; [reflexivity|repeat constructor]).
    assert (Hen : forall l, enumerates l (order38 l)).
    { intros l; split; [apply NoDup_nodup|]. intros c; apply nodup_In. }
    split; [exact Hx|]. split; [reflexivity|]. split; [exact Hen|]. split; [intros a b; apply Bool.eqb_true_iff|].
    split; [apply insertion_argsort_ok|]. split; [simpl; lia|]. split; [reflexivity|].
    intros Sw Sb.
    destruct (scatter_within_ok solve Bool.eqb Bool.eqb_true_iff 4 2 x38 lab38 true (order38 lab38) Hx eq_refl (Hen lab38)) as (W1 & W2).
    destruct (scatter_between_ok solve Bool.eqb Bool.eqb_true_iff 4 2 x38 lab38 true (order38 lab38) Hx eq_refl (Hen lab38)) as (B1 & B2).
    fold Sw in W1, W2. fold Sb in B1, B2.
    assert (HW : Sw = [[2; 0]; [0; 2]]).
    { apply (ent_ext 2 2); auto. { split; [reflexivity|repeat constructor]. }
      intros i j Hi Hj. rewrite W2 by auto.
      destruct i as [|[|i]]; [| |lia]; (destruct j as [|[|j]]; [| |lia]);
        unfold within, cmean, csize, lab38, ent, x38; cbn [sumn nth Bool.eqb ind]; field. }
    assert (HB : Sb = [[16; 0]; [0; 0]]).
    { apply (ent_ext 2 2); auto. { split; [reflexivity|repeat constructor]. }
      intros i j Hi Hj. rewrite B2 by auto.
      destruct i as [|[|i]]; [| |lia]; (destruct j as [|[|j]]; [| |lia]);
        unfold between, cmean, smean, csize, lab38, ent, x38; cbn [sumn nth Bool.eqb ind INR]; field. }
    split; [reflexivity|]. split; [|split; [reflexivity|]].
    - rewrite HW. split; [split; [reflexivity|repeat constructor]|].
      intros i j Hi Hj. destruct i as [|[|i]]; [| |lia]; (destruct j as [|[|j]]; [| |lia]);
        unfold ent, si38; cbn [sumn nth Nat.eqb]; split; field.
    - rewrite HB. split; [reflexivity|]. split; [split; [reflexivity|repeat constructor]|].
      intros i Hi. split.
      + destruct i as [|[|i]]; [| |lia]; [exists 1%nat|exists 0%nat]; (split; [lia|unfold ent, V38; cbn [nth]; lra]).
      + intros j Hj. cbn [sumn]. rewrite !(mm_nth solve) by (simpl; lia).
        destruct i as [|[|i]]; [| |lia]; (destruct j as [|[|j]]; [| |lia]);
          unfold ent, si38, V38, column; cbn [map nth Rdot]; change (@n0 R _) with 0; field.
  Qed.
End Example38.
