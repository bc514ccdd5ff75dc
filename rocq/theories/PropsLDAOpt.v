(** C77: what LDA separates.  Real arithmetic. *)
From Coq Require Import Reals Lra Psatz Permutation.
From Verif Require Import Py Num Numpy StructProofs RVec RMat Preprocess PropsPCA PropsLDA PropsPCAOpt.
Open Scope R_scope.

(** ** Two quadratic forms with common eigenvectors *)
Section Forms.
  Variables (c : nat) (G : nat -> nat -> R) (lam : nat -> R).
  Hypothesis Gsym : forall p q, G p q = G q p.
  Hypothesis Gorth : forall p q, (p < c)%nat -> (q < c)%nat -> lam p <> lam q -> G p q = 0.
  Hypothesis Gpsd : forall b, 0 <= sumn c (fun p => sumn c (fun q => b p * b q * G p q)).

  Lemma rayleigh a mu : (forall q, (q < c)%nat -> mu < lam q -> sumn c (fun p => a p * G p q) = 0) ->
    sumn c (fun p => sumn c (fun q => a p * a q * (lam q * G p q))) <= mu * sumn c (fun p => sumn c (fun q => a p * a q * G p q)).
  Proof.
    intros H0. set (r := fun q => sqrt (Rmax (mu - lam q) 0)).
    assert (Hr : forall q, r q * r q = Rmax (mu - lam q) 0) by (intros; apply sqrt_sqrt, Rmax_r).
    assert (E : mu * sumn c (fun p => sumn c (fun q => a p * a q * G p q)) - sumn c (fun p => sumn c (fun q => a p * a q * (lam q * G p q)))
      = sumn c (fun p => sumn c (fun q => (a p * r p) * (a q * r q) * G p q))).
    { rewrite <- sumn_scal, <- sumn_minus.
      rewrite (sumn_ext c _ (fun p => sumn c (fun q => a q * (mu - lam q) * (a p * G p q)))).
      2:{ intros p _. rewrite <- sumn_scal, <- sumn_minus. apply sumn_ext; intros; ring. }
      rewrite sumn_swap.
      rewrite (sumn_ext c _ (fun q => sumn c (fun p => (a p * r p) * (a q * r q) * G p q))); [apply sumn_swap|].
      intros q Hq. rewrite sumn_scal.
      transitivity (a q * Rmax (mu - lam q) 0 * sumn c (fun p => a p * G p q)).
      - destruct (Rlt_le_dec mu (lam q)) as [H|H]; [rewrite (H0 q Hq H); ring|]. rewrite Rmax_left by lra. reflexivity.
      - rewrite <- sumn_scal. apply sumn_ext; intros p Hp. destruct (Req_dec (lam p) (lam q)) as [El|Hne].
        + rewrite <- Hr. replace (r p) with (r q) by (unfold r; rewrite El; reflexivity). ring.
        + rewrite (Gorth p q Hp Hq Hne). ring. }
    pose proof (Gpsd (fun p => a p * r p)) as H. cbv beta in H. lra.
  Qed.

  Lemma positive_part a : (forall q, (q < c)%nat -> 0 <= lam q) ->
    sumn c (fun p => sumn c (fun q => a p * a q * (lam q * G p q))) =
    sumn c (fun p => sumn c (fun q => (a p * sqrt (lam p)) * (a q * sqrt (lam q)) * G p q)).
  Proof.
    intros H0. apply sumn_ext; intros p Hp. apply sumn_ext; intros q Hq.
    destruct (Req_dec (lam p) (lam q)) as [El|Hne]; [|rewrite (Gorth p q Hp Hq Hne); ring].
    rewrite <- (sqrt_sqrt (lam q) (H0 q Hq)) at 1. rewrite El. ring.
  Qed.
End Forms.

(** ** Fewer equations than unknowns *)
Definition skip (p j : nat) : nat := if Nat.ltb j p then j else S j.
Lemma sumn_skip n p f : (p < S n)%nat -> sumn (S n) f = f p + sumn n (fun j => f (skip p j)).
Proof.
  revert p. induction n as [|n IH]; intros p Hp.
  - replace p with 0%nat by lia. simpl. ring.
  - destruct (Nat.eq_dec p (S n)) as [->|Hne].
    + rewrite (sumn_ext (S n) (fun j => f (skip (S n) j)) f).
      * cbn [sumn]. ring.
      * intros j Hj. unfold skip. destruct (Nat.ltb_spec j (S n)); [reflexivity|lia].
    + cbn [sumn]. cbn [sumn] in IH. rewrite (IH p) by lia. unfold skip at 3.
      destruct (Nat.ltb_spec n p); [lia|]. ring.
Qed.
Lemma underdetermined : forall m n (A : nat -> nat -> R), (m < n)%nat ->
  exists a : nat -> R, (exists j, (j < n)%nat /\ a j <> 0) /\ forall i, (i < m)%nat -> sumn n (fun j => A i j * a j) = 0.
Proof.
  induction m as [|m IH]; intros n A Hmn.
  - exists (fun _ => 1). split; [exists 0%nat; split; [lia|lra]|]. intros i Hi; lia.
  - destruct n as [|n]; [lia|].
    assert (D : (forall p, (p < S n)%nat -> A m p = 0) \/ exists p, (p < S n)%nat /\ A m p <> 0).
    { assert (forall k, (forall p, (p < k)%nat -> A m p = 0) \/ exists p, (p < k)%nat /\ A m p <> 0) as H; [|apply H].
      clear. induction k as [|k [IH|IH]]; [left; intros; lia| |right; destruct IH as (p & ? & ?); exists p; auto].
      destruct (Req_dec (A m k) 0) as [H|H]; [|right; exists k; auto].
      left. intros p Hp. destruct (Nat.eq_dec p k) as [->|]; [exact H|apply IH; lia]. }
    destruct D as [D|(p & Hp & Hne)].
    + destruct (IH (S n) A ltac:(lia)) as (a & Ha & HA). exists a. split; [exact Ha|]. intros i Hi.
      destruct (Nat.eq_dec i m) as [->|]; [|apply HA; lia].
      rewrite (sumn_ext (S n) _ (fun _ => 0)); [apply sumn_0|]. intros j Hj. rewrite (D j Hj). ring.
    + destruct (IH n (fun i j => A i (skip p j) - A i p * A m (skip p j) / A m p) ltac:(lia)) as (b & (j0 & Hj0 & Hb0) & HB).
      set (s := sumn n (fun j => A m (skip p j) * b j)).
      set (a := fun j => if Nat.eqb j p then - s / A m p else if Nat.ltb j p then b j else b (pred j)).
      assert (Hs : forall j, a (skip p j) = b j).
      { intros j. unfold a, skip. destruct (Nat.ltb_spec j p).
        - destruct (Nat.eqb_spec j p); [lia|]. destruct (Nat.ltb_spec j p); [reflexivity|lia].
        - destruct (Nat.eqb_spec (S j) p); [lia|]. destruct (Nat.ltb_spec (S j) p); [lia|reflexivity]. }
      assert (Hap : a p = - s / A m p) by (unfold a; rewrite Nat.eqb_refl; reflexivity).
      exists a. split.
      { exists (skip p j0). split; [unfold skip; destruct (Nat.ltb_spec j0 p); lia|]. rewrite Hs. exact Hb0. }
      intros i Hi. rewrite (sumn_skip n p _ Hp), Hap.
      rewrite (sumn_ext n _ (fun j => A i (skip p j) * b j)) by (intros; rewrite Hs; reflexivity).
      destruct (Nat.eq_dec i m) as [->|].
      * fold s. field. exact Hne.
      * pose proof (HB i ltac:(lia)) as H. cbv beta in H.
        rewrite (sumn_ext n _ (fun j => A i (skip p j) * b j - A i p / A m p * (A m (skip p j) * b j))) in H by (intros; field; exact Hne).
        rewrite sumn_minus, sumn_scal in H. fold s in H.
        replace (A i p * (- s / A m p)) with (- (A i p / A m p * s)) by (field; exact Hne). lra.
Qed.

Section LDAOpt.
  Variable solve : list rvec -> list rvec -> option (list rvec).
  #[local] Hint Extern 0 (Num R) => exact (RNum solve) : typeclass_instances.
  Context {L : Type}.
  Variable eqb : L -> L -> bool.
  Hypothesis eqb_ok : forall a b, eqb a b = true <-> a = b.
  Variable set_order : list L -> list L.
  Hypothesis set_order_ok : forall labels, enumerates labels (set_order labels).
  Variable inv : rmat -> option rmat.
  Variable eig : rmat -> option (rvec * rmat).
  Variable argsort : rvec -> list nat.
  Hypothesis argsort_ok : forall v, sorting_indices v (argsort v).

  (** what is asked of np.linalg.inv and np.linalg.eig: a correct inverse; eigenvectors that form a basis *)
  Definition solvers_ok (cols : nat) (x : rmat) (labels : list L) (si : rmat) (values : rvec) (V : rmat) : Prop :=
    let Sw := scatter_within eqb cols x labels (set_order labels) in
    let Sb := scatter_between eqb cols x labels (set_order labels) in
    inv Sw = Some si /\ inverse_matrix cols Sw si /\
    eig (mm cols si Sb) = Some (values, V) /\ eigensystem cols (mm cols si Sb) values V /\ exists U, inverse_matrix cols V U.

  Section Main.
    Variables (N cols : nat) (x : rmat) (labels : list L) (d : L) (si : rmat) (values : rvec) (V : rmat).
    Hypothesis Hx : shape N cols x.
    Hypothesis Hl : length labels = N.
    Hypothesis HS : solvers_ok cols x labels si values V.
    Let lab (k : nat) : L := nth k labels d.
    Let Sw := scatter_within eqb cols x labels (set_order labels).
    Let Sb := scatter_between eqb cols x labels (set_order labels).
    Let ord := descending argsort values.
    (** weights, feature and discriminant of the i-th column *)
    Let wt (i j : nat) : R := ent V j (nth i ord 0%nat).
    Let ft (u : nat -> R) (k : nat) : R := sumn cols (fun j => u j * ent x k j).
    Let zz (k i : nat) : R := ft (wt i) k.
    Let lam (i : nat) : R := nth (nth i ord 0%nat) values 0.
    Let W f g := within eqb N lab f g.
    Let B f g := between eqb N lab f g.

    Lemma lv : length values = cols.
    Proof. destruct HS as (_ & _ & _ & (H & _) & _). exact H. Qed.
    Lemma o_lt i : (i < cols)%nat -> (nth i ord 0%nat < cols)%nat.
    Proof. intros H. rewrite <- lv. apply (descending_lt solve); auto. rewrite lv. exact H. Qed.
    Lemma o_perm : Permutation ord (seq 0 cols).
    Proof.
      rewrite <- lv. destruct (argsort_ok (map Ropp values)) as (H & _). rewrite map_length in H.
      exact H.
    Qed.
    Lemma o_len : length ord = cols.
    Proof. rewrite (Permutation_length o_perm), seq_length. reflexivity. Qed.
    Lemma sumn_ord f : sumn cols (fun i => f (nth i ord 0%nat)) = sumn cols f.
    Proof.
      rewrite <- o_len at 1. transitivity (Rsum (map f ord)).
      - rewrite Rsum_sumn, map_length. apply sumn_ext; intros i Hi. rewrite (nth_indep _ 0 (f 0%nat)) by (rewrite map_length; auto). symmetry. apply map_nth.
      - rewrite (Permutation_Rsum _ _ (Permutation_map f o_perm)), Rsum_sumn, map_length, seq_length.
        apply sumn_ext; intros i Hi. rewrite (nth_indep _ 0 (f 0%nat)) by (rewrite map_length, seq_length; auto).
        rewrite map_nth, seq_nth by auto. reflexivity.
    Qed.
    Lemma lam_desc a b : (a <= b < cols)%nat -> lam b <= lam a.
    Proof.
      intros Hab. unfold lam, ord. rewrite <- !(pick_nth solve argsort argsort_ok values) by (rewrite lv; lia).
      apply (pick_descending solve argsort argsort_ok values). unfold pick. rewrite map_length, (descending_len solve), lv by auto. lia.
    Qed.

    Lemma Wf u v : W (ft u) (ft v) = sumn cols (fun a => sumn cols (fun b => u a * v b * ent Sw a b)).
    Proof.
      destruct (scatter_within_ok solve eqb eqb_ok N cols x labels d (set_order labels) Hx Hl (set_order_ok labels)) as (W1 & W2).
      fold Sw in W1, W2. cbv beta in W2. unfold W, ft.
      rewrite (within_comb eqb N lab cols u v (fun k j => ent x k j)).
      apply sumn_ext; intros a Ha. apply sumn_ext; intros b Hb. rewrite W2 by auto. reflexivity.
    Qed.
    Lemma Bf u v : B (ft u) (ft v) = sumn cols (fun a => sumn cols (fun b => u a * v b * ent Sb a b)).
    Proof.
      destruct (scatter_between_ok solve eqb eqb_ok N cols x labels d (set_order labels) Hx Hl (set_order_ok labels)) as (W1 & W2).
      fold Sb in W1, W2. cbv beta in W2. unfold B, ft.
      rewrite (between_comb eqb N lab cols u v (fun k j => ent x k j)).
      apply sumn_ext; intros a Ha. apply sumn_ext; intros b Hb. rewrite W2 by auto. reflexivity.
    Qed.
    Lemma W_sym f g : W f g = W g f.
    Proof. apply sumn_ext; intros; ring. Qed.
    Lemma B_sym f g : B f g = B g f.
    Proof. apply sumn_ext; intros; ring. Qed.

    Lemma gen q a : (q < cols)%nat -> (a < cols)%nat ->
      sumn cols (fun b => ent Sb a b * ent V b q) = nth q values 0 * sumn cols (fun b => ent Sw a b * ent V b q).
    Proof.
      intros Hq Ha. destruct HS as (_ & (Hsi & Hinv) & _ & (_ & HV & HE) & _). fold Sw in Hinv. fold Sb in HE.
      destruct (scatter_between_ok solve eqb eqb_ok N cols x labels d (set_order labels) Hx Hl (set_order_ok labels)) as (B1 & _). fold Sb in B1.
      destruct (HE q Hq) as (_ & HEq).
      assert (Hmmv : forall b, (b < cols)%nat -> sumn cols (fun c => ent si b c * sumn cols (fun e => ent Sb c e * ent V e q)) = nth q values 0 * ent V b q).
      { intros b Hb'. rewrite <- HEq by auto. rewrite (sumn_ext cols _ (fun c => sumn cols (fun e => ent si b c * (ent Sb c e * ent V e q)))) by (intros; rewrite sumn_scal; reflexivity).
        rewrite sumn_swap. apply sumn_ext; intros e He'. rewrite (mm_nth solve) by (auto; destruct Hsi; lia).
        rewrite (Rdot_sumn cols).
        2:{ apply (shape_row cols cols); auto. } 2:{ rewrite (column_len solve); apply B1. }
        rewrite <- sumn_scal_r. apply sumn_ext; intros c Hc. rewrite (column_nth solve) by (destruct B1; lia).
        unfold ent. ring. }
      transitivity (sumn cols (fun b => ent Sw a b * (nth q values 0 * ent V b q))).
      2:{ rewrite <- sumn_scal. apply sumn_ext; intros; ring. }
      rewrite (sumn_ext cols (fun b => ent Sw a b * (nth q values 0 * ent V b q))
                (fun b => sumn cols (fun c => (ent Sw a b * ent si b c) * sumn cols (fun e => ent Sb c e * ent V e q)))).
      2:{ intros b Hb'. rewrite <- Hmmv by auto. rewrite <- sumn_scal. apply sumn_ext; intros; ring. }
      rewrite sumn_swap.
      rewrite <- (sumn_delta cols a (fun c => sumn cols (fun e => ent Sb c e * ent V e q))) by auto.
      apply sumn_ext; intros c Hc. rewrite sumn_scal_r. destruct (Hinv a c Ha Hc) as (HI & _). rewrite HI. reflexivity.
    Qed.

    Lemma BW u q : (q < cols)%nat -> B (ft u) (ft (wt q)) = lam q * W (ft u) (ft (wt q)).
    Proof.
      intros Hq. rewrite Bf, Wf, <- sumn_scal. apply sumn_ext; intros a Ha.
      rewrite (sumn_ext cols _ (fun b => u a * (ent Sb a b * wt q b))) by (intros; ring).
      rewrite (sumn_ext cols (fun b => u a * wt q b * ent Sw a b) (fun b => u a * (ent Sw a b * wt q b))) by (intros; ring).
      rewrite !sumn_scal. unfold wt, lam. rewrite (gen _ a (o_lt q Hq) Ha). ring.
    Qed.
    Lemma orth p q : (p < cols)%nat -> (q < cols)%nat -> lam p <> lam q -> W (ft (wt p)) (ft (wt q)) = 0.
    Proof.
      intros Hp Hq Hne. pose proof (BW (wt p) q Hq) as E1. pose proof (BW (wt q) p Hp) as E2.
      rewrite B_sym, W_sym in E2. rewrite E1 in E2.
      assert (Hz : (lam q - lam p) * W (ft (wt p)) (ft (wt q)) = 0) by lra.
      apply Rmult_integral in Hz as [Hz|Hz]; [|exact Hz]. exfalso. apply Hne. lra.
    Qed.
    (** every feature is a combination of the columns *)
    Lemma expand u : exists a, forall k, ft u k = sumn cols (fun q => a q * zz k q).
    Proof.
      destruct HS as (_ & _ & _ & _ & U & _ & HU).
      exists (fun q => sumn cols (fun l => ent U (nth q ord 0%nat) l * u l)). intros k.
      unfold zz, ft, wt. cbv beta.
      rewrite (sumn_ord (fun q => sumn cols (fun l => ent U q l * u l) * sumn cols (fun j => ent V j q * ent x k j))). rewrite (sumn_ext cols (fun q => sumn cols (fun l => ent U q l * u l) * sumn cols (fun j => ent V j q * ent x k j)) (fun q => sumn cols (fun j => (ent V j q * ent x k j) * sumn cols (fun l => ent U q l * u l)))).
      2:{ intros q _. rewrite Rmult_comm, <- sumn_scal_r. reflexivity. }
      rewrite sumn_swap. apply sumn_ext; intros j Hj.
      rewrite (sumn_ext cols _ (fun q => sumn cols (fun l => ent x k j * u l * (ent V j q * ent U q l)))).
      2:{ intros q _. rewrite <- sumn_scal. apply sumn_ext; intros; ring. }
      rewrite sumn_swap.
      rewrite (sumn_ext cols _ (fun l => (if Nat.eqb j l then 1 else 0) * (ent x k j * u l))).
      - rewrite (sumn_delta cols j (fun l => ent x k j * u l) Hj). ring.
      - intros l Hl'. rewrite sumn_scal. destruct (HU j l Hj Hl') as (E & _). rewrite E. ring.
    Qed.
    Lemma ft_comb a k : sumn cols (fun q => a q * zz k q) = ft (fun j => sumn cols (fun q => a q * wt q j)) k.
    Proof.
      unfold zz, ft. rewrite (sumn_ext cols _ (fun q => sumn cols (fun j => a q * wt q j * ent x k j))).
      - rewrite sumn_swap. apply sumn_ext; intros j _. rewrite sumn_scal_r. reflexivity.
      - intros q _. rewrite <- sumn_scal. apply sumn_ext; intros; ring.
    Qed.
    Lemma within_ext f f' g g' : (forall k, (k < N)%nat -> f k = f' k) -> (forall k, (k < N)%nat -> g k = g' k) -> W f g = W f' g'.
    Proof.
      intros H H'. unfold W, within. apply sumn_ext; intros k Hk. rewrite H, H' by auto.
      assert (E : forall f f', (forall k, (k < N)%nat -> f k = f' k) -> cmean eqb N lab f (lab k) = cmean eqb N lab f' (lab k)).
      { intros g0 g0' H0. unfold cmean. f_equal. apply sumn_ext; intros l Hl'. rewrite H0 by auto. reflexivity. }
      rewrite (E f f'), (E g g') by auto. reflexivity.
    Qed.
    Lemma between_ext f f' g g' : (forall k, (k < N)%nat -> f k = f' k) -> (forall k, (k < N)%nat -> g k = g' k) -> B f g = B f' g'.
    Proof.
      intros H H'. unfold B, between. apply sumn_ext; intros k Hk.
      assert (E : forall f f', (forall k, (k < N)%nat -> f k = f' k) -> cmean eqb N lab f (lab k) = cmean eqb N lab f' (lab k) /\ smean N f = smean N f').
      { intros g0 g0' H0. unfold cmean, smean. split; f_equal; apply sumn_ext; intros l Hl'; rewrite H0 by auto; reflexivity. }
      destruct (E f f' H) as (-> & ->). destruct (E g g' H') as (-> & ->). reflexivity.
    Qed.
    Lemma W_comb a b : W (fun k => sumn cols (fun q => a q * zz k q)) (fun k => sumn cols (fun q => b q * zz k q)) =
      sumn cols (fun p => sumn cols (fun q => a p * b q * W (ft (wt p)) (ft (wt q)))).
    Proof. apply (within_comb eqb N lab cols a b zz). Qed.
    Lemma B_comb a b : B (fun k => sumn cols (fun q => a q * zz k q)) (fun k => sumn cols (fun q => b q * zz k q)) =
      sumn cols (fun p => sumn cols (fun q => a p * b q * (lam q * W (ft (wt p)) (ft (wt q))))).
    Proof.
      etransitivity; [apply (between_comb eqb N lab cols a b zz)|]. apply sumn_ext; intros p _. apply sumn_ext; intros q Hq.
      f_equal. apply (BW (wt p) q Hq).
    Qed.
    Lemma W_psd b : 0 <= sumn cols (fun p => sumn cols (fun q => b p * b q * W (ft (wt p)) (ft (wt q)))).
    Proof. rewrite <- W_comb. apply (within_nonneg eqb). Qed.

    Lemma best u i : (i < cols)%nat -> (forall j, (j < i)%nat -> W (ft u) (ft (wt j)) = 0) ->
      B (ft u) (ft u) <= lam i * W (ft u) (ft u).
    Proof.
      intros Hi H0. destruct (expand u) as (a & Ha).
      rewrite (between_ext _ _ _ _ (fun k _ => Ha k) (fun k _ => Ha k)), (within_ext _ _ _ _ (fun k _ => Ha k) (fun k _ => Ha k)).
      rewrite W_comb, B_comb.
      apply (rayleigh cols (fun p q => W (ft (wt p)) (ft (wt q))) lam).
      - intros p q Hp Hq. apply orth; auto.
      - apply W_psd.
      - intros q Hq Hlt.
        assert (Hqi : (q < i)%nat). { destruct (Nat.lt_ge_cases q i) as [|H]; [assumption|]. pose proof (lam_desc i q ltac:(lia)). lra. }
        rewrite <- (H0 q Hqi). rewrite (within_ext _ _ _ (ft (wt q)) (fun k _ => Ha k) (fun k _ => eq_refl)).
        rewrite (within_ext _ (fun k => sumn cols (fun q => a q * zz k q)) (ft (wt q)) (fun k => sumn cols (fun j => (if Nat.eqb q j then 1 else 0) * zz k j)));
          [|reflexivity|intros k _; rewrite (sumn_delta cols q (zz k) Hq); reflexivity].
        rewrite W_comb. apply sumn_ext; intros p _.
        rewrite (sumn_ext cols _ (fun j => (if Nat.eqb q j then 1 else 0) * (a p * W (ft (wt p)) (ft (wt j))))) by (intros; ring).
        rewrite (sumn_delta cols q (fun j => a p * W (ft (wt p)) (ft (wt j))) Hq). reflexivity.
    Qed.

    (** the within-class scatter of a feature with nonzero weights is positive *)
    Lemma W_def u : W (ft u) (ft u) = 0 -> forall j, (j < cols)%nat -> u j = 0.
    Proof.
      intros H j0 Hj0. pose proof (sumn_sq_zero N (fun k => ft u k - cmean eqb N lab (ft u) (lab k)) H) as Hz.
      assert (Hv0 : forall a, (a < cols)%nat -> sumn cols (fun b => ent Sw a b * u b) = 0).
      { intros a Ha. transitivity (W (ft (basis a)) (ft u)).
        - rewrite Wf. symmetry. rewrite (sumn_ext cols _ (fun i => (if Nat.eqb a i then 1 else 0) * sumn cols (fun b => ent Sw i b * u b))).
          + apply (sumn_delta cols a (fun i => sumn cols (fun b => ent Sw i b * u b)) Ha).
          + intros i _. rewrite <- sumn_scal. apply sumn_ext; intros; unfold basis; ring.
        - unfold W, within. rewrite <- (sumn_0 N). apply sumn_ext; intros k Hk. rewrite (Hz k Hk). ring. }
      destruct HS as (_ & (_ & Hinv) & _). fold Sw in Hinv.
      rewrite <- (sumn_delta cols j0 u) by auto.
      rewrite (sumn_ext cols _ (fun b => sumn cols (fun c => ent si j0 c * (ent Sw c b * u b)))).
      - rewrite sumn_swap. rewrite <- (sumn_0 cols). apply sumn_ext; intros c Hc. rewrite sumn_scal, Hv0 by auto. ring.
      - intros b Hb'. destruct (Hinv j0 b Hj0 Hb') as (_ & HI). rewrite <- HI, <- sumn_scal_r. apply sumn_ext; intros; ring.
    Qed.
    (** the columns are independent *)
    Lemma independent a : (forall j, (j < cols)%nat -> sumn cols (fun q => a q * wt q j) = 0) -> forall q, (q < cols)%nat -> a q = 0.
    Proof.
      intros H q Hq. destruct HS as (_ & _ & _ & _ & U & _ & HU).
      pose proof (o_lt q Hq) as Ho.
      assert (E : forall p, (p < cols)%nat -> sumn cols (fun j => ent U (nth q ord 0%nat) j * wt p j) = if Nat.eqb q p then 1 else 0).
      { intros p Hp. destruct (HU _ _ Ho (o_lt p Hp)) as (_ & E). etransitivity; [exact E|].
        destruct (Nat.eqb_spec q p) as [->|Hne]; [rewrite Nat.eqb_refl; reflexivity|].
        destruct (Nat.eqb_spec (nth q ord 0%nat) (nth p ord 0%nat)) as [Heq|]; [|reflexivity].
        exfalso. apply Hne. refine (proj1 (NoDup_nth ord 0%nat) _ q p _ _ Heq); rewrite ?o_len; auto.
        apply (Permutation_NoDup (Permutation_sym o_perm)), seq_NoDup. }
      rewrite <- (sumn_delta cols q a Hq).
      transitivity (sumn cols (fun p => sumn cols (fun j => ent U (nth q ord 0%nat) j * (a p * wt p j)))).
      - apply sumn_ext; intros p Hp. rewrite <- (E p Hp), <- sumn_scal_r. apply sumn_ext; intros; ring.
      - rewrite sumn_swap, <- (sumn_0 cols). apply sumn_ext; intros j Hj. rewrite sumn_scal, (H j Hj). ring.
    Qed.
    Lemma lam_nonneg q : (q < cols)%nat -> 0 <= lam q.
    Proof.
      intros Hq. destruct (Rle_lt_dec 0 (lam q)) as [|Hlt]; [assumption|exfalso].
      pose proof (between_nonneg eqb N lab (ft (wt q))) as HB. fold (B (ft (wt q)) (ft (wt q))) in HB. rewrite (BW (wt q) q Hq) in HB.
      pose proof (within_nonneg eqb N lab (ft (wt q))) as HW. fold (W (ft (wt q)) (ft (wt q))) in HW.
      assert (Z : W (ft (wt q)) (ft (wt q)) = 0) by nra.
      pose proof (W_def _ Z) as Hw.
      assert (E : (if Nat.eqb q q then 1 else 0) = 0).
      { apply (independent (fun p => if Nat.eqb q p then 1 else 0)); [|exact Hq]. intros j Hj.
        rewrite (sumn_delta cols q (fun p => wt p j) Hq). apply Hw; exact Hj. }
      rewrite Nat.eqb_refl in E. lra.
    Qed.

    (** the class means of a feature all equal its total mean as soon as they do in all classes but one *)
    Lemma no_between (f : nat -> R) cl cs : set_order labels = cl :: cs ->
      (forall c, In c cs -> cmean eqb N lab f c = smean N f) -> B f f = 0.
    Proof.
      intros Ecl H. destruct (set_order_ok labels) as (HN & Hin). rewrite Ecl in HN, Hin.
      assert (Hinl : forall k, (k < N)%nat -> In (lab k) (cl :: cs)).
      { intros k Hk. apply Hin. unfold lab. apply nth_In. lia. }
      (* the weighted deviations sum to zero *)
      pose proof (class_residuals eqb eqb_ok N lab (cl :: cs) f (fun _ => 1) HN Hinl) as H0. cbv beta in H0.
      assert (H1 : sumn N (fun k => cmean eqb N lab f (lab k) - smean N f) = 0).
      { rewrite (sumn_ext N _ (fun k => f k - cmean eqb N lab f (lab k))) in H0 by (intros; ring).
        rewrite sumn_minus in H0. rewrite sumn_minus, PropsPCAOpt.sumn_const. unfold smean.
        destruct (Nat.eq_dec N 0) as [->|HN0]; [cbn [sumn INR]; unfold Rdiv; ring|].
        assert (INR N <> 0) by (apply not_0_INR; exact HN0).
        replace (INR N * (sumn N f / INR N)) with (sumn N f) by (field; assumption). lra. }
      assert (H2 : sumn N (fun k => cmean eqb N lab f (lab k) - smean N f) =
        (cmean eqb N lab f cl - smean N f) * csize eqb N lab cl).
      { unfold csize. rewrite <- sumn_scal. apply sumn_ext; intros k Hk.
        destruct (eqb (lab k) cl) eqn:E; simpl.
        - apply eqb_ok in E. rewrite E. ring.
        - destruct (Hinl k Hk) as [E'|Hc]; [|rewrite (H _ Hc); ring].
          assert (eqb (lab k) cl = true) by (apply eqb_ok; auto). congruence. }
      assert (Hcl : (exists k, (k < N)%nat /\ lab k = cl)).
      { assert (In cl labels) as Hc by (apply Hin; left; reflexivity). apply (In_nth _ _ d) in Hc as (k & Hk & E). exists k. split; [lia|exact E]. }
      destruct Hcl as (k0 & Hk0 & Ek0). pose proof (csize_pos eqb eqb_ok N lab k0 Hk0) as Hp. rewrite Ek0 in Hp.
      rewrite H1 in H2. symmetry in H2. apply Rmult_integral in H2 as [H2|H2]; [|lra].
      unfold B, between. rewrite <- (sumn_0 N). apply sumn_ext; intros k Hk.
      destruct (Hinl k Hk) as [<-|Hc]; [rewrite H2; ring|rewrite (H _ Hc); ring].
    Qed.

    Lemma rank i : (length (set_order labels) <= S i)%nat -> (i < cols)%nat -> lam i = 0.
    Proof.
      intros Hi Hc.
      assert (D : set_order labels = [] \/ exists cl cs, set_order labels = cl :: cs).
      { generalize (set_order labels). intros [|cl cs]; [left; reflexivity|right; exists cl, cs; reflexivity]. }
      destruct D as [Ecl|(cl & cs & Ecl)].
      { (* no sample *)
        destruct (set_order_ok labels) as (_ & Hin). rewrite Ecl in Hin.
        assert (HN0 : N = 0%nat).
        { destruct (Nat.eq_dec N 0) as [|H]; [assumption|]. destruct (proj2 (Hin (lab 0%nat))). apply nth_In. lia. }
        exfalso. assert (E : (if Nat.eqb i i then 1 else 0) = 0); [|rewrite Nat.eqb_refl in E; lra].
        apply (W_def (fun j => if Nat.eqb i j then 1 else 0)); [|exact Hc]. unfold W, within. rewrite HN0. reflexivity. }
      rewrite Ecl in Hi.
      simpl in Hi. pose proof (lam_nonneg i Hc) as [Hpos|]; [exfalso|congruence].
      destruct (underdetermined (length cs) (S i)
        (fun t q => cmean eqb N lab (ft (wt q)) (nth t cs d) - smean N (ft (wt q))) ltac:(lia)) as (a & (j0 & Hj0 & Haj) & HA).
      set (a' := fun q => if Nat.ltb q (S i) then a q else 0).
      assert (Htr : forall g, sumn cols (fun q => a' q * g q) = sumn (S i) (fun q => a q * g q)).
      { intros g. assert (forall n, (S i <= n)%nat -> sumn n (fun q => a' q * g q) = sumn (S i) (fun q => a q * g q)) as T; [|apply T; lia].
        induction n as [|n IH]; intros Hn; [lia|]. destruct (Nat.eq_dec n i) as [->|].
        - apply sumn_ext. intros q Hq. unfold a'. destruct (Nat.ltb_spec q (S i)); [reflexivity|lia].
        - cbn [sumn] in *. rewrite IH by lia. unfold a'. destruct (Nat.ltb_spec n (S i)); [lia|]. ring. }
      set (f := fun k => sumn cols (fun q => a' q * zz k q)).
      assert (HB0 : B f f = 0).
      { apply (no_between f cl cs Ecl). intros c Hc'. apply (In_nth _ _ d) in Hc' as (t & Ht & <-).
        unfold f. rewrite (cmean_comb eqb N lab cols a' zz), (smean_comb N cols a' zz).
        apply Rminus_diag_uniq. rewrite <- sumn_minus.
        rewrite (sumn_ext cols _ (fun q => a' q * (cmean eqb N lab (ft (wt q)) (nth t cs d) - smean N (ft (wt q))))).
        - rewrite Htr. rewrite <- (HA t Ht). apply sumn_ext; intros; ring.
        - intros q _. change (fun k => zz k q) with (ft (wt q)). ring. }
      unfold f in HB0. rewrite B_comb in HB0.
      rewrite (positive_part cols (fun p q => W (ft (wt p)) (ft (wt q))) lam) in HB0; [|intros p q Hp Hq; apply orth; auto|apply lam_nonneg].
      rewrite <- (W_comb (fun p => a' p * sqrt (lam p)) (fun p => a' p * sqrt (lam p))) in HB0.
      rewrite (within_ext _ _ _ _ (fun k _ => ft_comb _ k) (fun k _ => ft_comb _ k)) in HB0.
      pose proof (independent _ (W_def _ HB0) j0 ltac:(lia)) as E. cbv beta in E. unfold a' in E.
      destruct (Nat.ltb_spec j0 (S i)); [|lia]. apply Rmult_integral in E as [E|E]; [contradiction|].
      apply sqrt_eq_0 in E; [|apply lam_nonneg; lia]. pose proof (lam_desc j0 i ltac:(lia)). lra.
    Qed.
  End Main.

  (** *** C77 *)
  (** [N] samples, [labels] one per sample.  [feature u]: the linear feature with weights u.  No linear feature has a larger
      between-class scatter, relative to its within-class scatter, than the first column (whose ratio is the first
      discriminant), and none without within-class correlation to the first i columns has a larger one than the i-th
      discriminant. *)
  Definition feature (cols : nat) (x : rmat) (u : nat -> R) (k : nat) : R := sumn cols (fun j => u j * ent x k j).

  Lemma LDA_eq : forall N cols x labels n si values V, shape N cols x -> length labels = N ->
    (effective_n cols n < Z.of_nat cols)%Z -> solvers_ok cols x labels si values V ->
    exists out, LDA eig argsort eqb set_order inv cols x labels n = Ok out /\ shape N (kept cols n) out /\
      (forall k i, (k < N)%nat -> (i < kept cols n)%nat ->
        ent out k i = feature cols x (fun j => ent V j (nth i (descending argsort values) 0%nat)) k).
  Proof.
    intros N cols x labels n si values V Hx Hl Hn (Hi & _ & He & (Hlv & HV & _) & _).
    pose proof Hx as (Hxl & _).
    assert (Hb : LDA_base eig eqb set_order inv cols x labels = Ok (values, V)).
    { unfold LDA_base. destruct (Nat.eqb_spec (length labels) (length x)); [|congruence]. cbn [negb].
      rewrite Hi, He. reflexivity. }
    destruct (project_out solve argsort argsort_ok N cols x n values V Hx Hn Hlv HV) as (P1 & P2).
    eexists. split; [|split; [exact P1|exact P2]].
    unfold LDA. change (features cols n) with (effective_n cols n).
    destruct (Z.leb_spec (Z.of_nat cols) (effective_n cols n)); [lia|]. rewrite Hb. reflexivity.
  Qed.
  Lemma disc_eq : forall N cols x labels si values V, shape N cols x -> length labels = N -> solvers_ok cols x labels si values V ->
    exists disc, LDA_discriminants eig argsort eqb set_order inv cols x labels = Ok disc /\ length disc = cols /\
      forall i, (i < cols)%nat -> nth i disc 0 = nth (nth i (descending argsort values) 0%nat) values 0.
  Proof.
    intros N cols x labels si values V Hx Hl (Hi & _ & He & (Hlv & HV & _) & _).
    pose proof Hx as (Hxl & _). exists (pick 0 values (descending argsort values)).
    assert (Hb : LDA_base eig eqb set_order inv cols x labels = Ok (values, V)).
    { unfold LDA_base. destruct (Nat.eqb_spec (length labels) (length x)); [|congruence]. cbn [negb].
      rewrite Hi, He. reflexivity. }
    split; [unfold LDA_discriminants; rewrite Hb; reflexivity|].
    split; [unfold pick; rewrite map_length, (descending_len solve); auto|].
    intros i Hi'. apply (pick_nth solve argsort argsort_ok values). lia.
  Qed.

  Theorem C77_best_feature : forall N cols x labels d n si values V, shape N cols x -> length labels = N ->
    (effective_n cols n < Z.of_nat cols)%Z -> solvers_ok cols x labels si values V ->
    exists out disc, LDA eig argsort eqb set_order inv cols x labels n = Ok out /\
      LDA_discriminants eig argsort eqb set_order inv cols x labels = Ok disc /\
      let lab k := nth k labels d in
      forall u i, (i <= kept cols n)%nat -> (i < cols)%nat ->
        (forall j, (j < i)%nat -> within eqb N lab (feature cols x u) (fun k => ent out k j) = 0) ->
        between eqb N lab (feature cols x u) (feature cols x u) <= nth i disc 0 * within eqb N lab (feature cols x u) (feature cols x u).
  Proof.
    intros N cols x labels d n si values V Hx Hl Hn HS.
    destruct (LDA_eq N cols x labels n si values V Hx Hl Hn HS) as (out & H1 & _ & H3).
    destruct (disc_eq N cols x labels si values V Hx Hl HS) as (disc & D1 & _ & D3).
    exists out, disc. split; [exact H1|]. split; [exact D1|]. intros lab u i Hik Hic H0. rewrite (D3 i Hic).
    apply (best N cols x labels d si values V Hx Hl HS u i Hic).
    intros j Hj. etransitivity; [|exact (H0 j Hj)].
    apply (within_ext N labels d); [reflexivity|]. intros k Hk. symmetry. apply H3; [exact Hk|lia].
  Qed.

  (** Columns with different discriminants are uncorrelated, within the classes and between them *)
  Theorem C77_uncorrelated : forall N cols x labels d n si values V, shape N cols x -> length labels = N ->
    (effective_n cols n < Z.of_nat cols)%Z -> solvers_ok cols x labels si values V ->
    exists out disc, LDA eig argsort eqb set_order inv cols x labels n = Ok out /\
      LDA_discriminants eig argsort eqb set_order inv cols x labels = Ok disc /\
      let lab k := nth k labels d in
      forall i j, (i < kept cols n)%nat -> (j < kept cols n)%nat -> nth i disc 0 <> nth j disc 0 ->
        within eqb N lab (fun k => ent out k i) (fun k => ent out k j) = 0 /\
        between eqb N lab (fun k => ent out k i) (fun k => ent out k j) = 0.
  Proof.
    intros N cols x labels d n si values V Hx Hl Hn HS.
    destruct (LDA_eq N cols x labels n si values V Hx Hl Hn HS) as (out & H1 & _ & H3).
    destruct (disc_eq N cols x labels si values V Hx Hl HS) as (disc & D1 & _ & D3).
    exists out, disc. split; [exact H1|]. split; [exact D1|]. intros lab i j Hi Hj Hne.
    assert (Hkl : (kept cols n <= cols)%nat) by (unfold kept; destruct (Z.ltb_spec (effective_n cols n) 0); lia).
    rewrite (D3 i), (D3 j) in Hne by lia.
    pose proof (orth N cols x labels d si values V Hx Hl HS i j ltac:(lia) ltac:(lia) Hne) as HW.
    pose proof (BW N cols x labels d si values V Hx Hl HS (fun a => ent V a (nth i (descending argsort values) 0%nat)) j ltac:(lia)) as HB.
    cbv beta in HB. rewrite HW in HB. split.
    - etransitivity; [|exact HW]. apply (within_ext N labels d); intros k Hk; apply H3; auto.
    - etransitivity; [|etransitivity; [exact HB|ring]]. apply (between_ext N labels d); intros k Hk; apply H3; auto.
  Qed.

  (** With C different labels at most C-1 discriminants are nonzero: further columns do not separate the classes at all *)
  Theorem C77_rank : forall N cols x labels d n si values V, shape N cols x -> length labels = N ->
    (effective_n cols n < Z.of_nat cols)%Z -> solvers_ok cols x labels si values V ->
    exists out disc, LDA eig argsort eqb set_order inv cols x labels n = Ok out /\
      LDA_discriminants eig argsort eqb set_order inv cols x labels = Ok disc /\
      let lab k := nth k labels d in
      forall classes i, enumerates labels classes -> (length classes <= S i)%nat -> (i < cols)%nat ->
        nth i disc 0 = 0 /\
        ((i < kept cols n)%nat -> forall k, (k < N)%nat -> cmean eqb N lab (fun k => ent out k i) (lab k) = smean N (fun k => ent out k i)).
  Proof.
    intros N cols x labels d n si values V Hx Hl Hn HS.
    destruct (LDA_eq N cols x labels n si values V Hx Hl Hn HS) as (out & H1 & _ & H3).
    destruct (disc_eq N cols x labels si values V Hx Hl HS) as (disc & D1 & _ & D3).
    exists out, disc. split; [exact H1|]. split; [exact D1|]. intros lab classes i (Hnd & Hcl) Hlen Hc.
    assert (Hlen' : (length (set_order labels) <= S i)%nat).
    { destruct (set_order_ok labels) as (HN & Hin). eapply Nat.le_trans; [|exact Hlen].
      apply NoDup_incl_length; [exact HN|]. intros c Hc'. apply Hcl, Hin, Hc'. }
    pose proof (rank N cols x labels d si values V Hx Hl HS i Hlen' Hc) as HR. rewrite (D3 i Hc). split; [exact HR|].
    intros Hi k Hk.
    pose proof (BW N cols x labels d si values V Hx Hl HS (fun a => ent V a (nth i (descending argsort values) 0%nat)) i Hc) as HB.
    cbv beta in HB. rewrite HR, Rmult_0_l in HB.
    apply Rminus_diag_uniq.
    refine (sumn_sq_zero N (fun k => cmean eqb N lab (fun k => ent out k i) (lab k) - smean N (fun k => ent out k i)) _ k Hk).
    etransitivity; [|exact HB]. apply (between_ext N labels d); intros l Hl'; apply H3; auto.
  Qed.
End LDAOpt.

(** the hypotheses are met by the data of C38: two classes, so only one discriminant is nonzero *)
Section Example77.
  Variable solve : list rvec -> list rvec -> option (list rvec).
  #[local] Hint Extern 0 (Num R) => exact (RNum solve) : typeclass_instances.
  Example C77_hypotheses : shape 4 2 x38 /\ length lab38 = 4%nat /\ (effective_n 2 (Some 1%Z) < Z.of_nat 2)%Z /\ kept 2 (Some 1%Z) = 1%nat /\
    solvers_ok solve Bool.eqb order38 inv38 eig38 2 x38 lab38 si38 [0; 8] V38 /\ enumerates lab38 (order38 lab38) /\
    length (order38 lab38) = 2%nat.
  Proof.
    destruct (C38_hypotheses solve) as (H1 & H2 & H3 & _ & _ & H6 & H7 & H8 & H9 & H10 & H11).
    split; [exact H1|]. split; [exact H2|]. split; [exact H6|]. split; [exact H7|]. split; [|split; [apply H3|reflexivity]].
    split; [exact H8|]. split; [exact H9|]. split; [exact H10|]. split; [exact H11|].
    exists V38. split; [split; [reflexivity|repeat constructor]|].
    intros i j Hi Hj. destruct i as [|[|i]]; [| |lia]; (destruct j as [|[|j]]; [| |lia]);
      unfold ent, V38; cbn [sumn nth Nat.eqb]; split; ring.
  Qed.
End Example77.
