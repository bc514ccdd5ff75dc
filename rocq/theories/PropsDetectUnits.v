(** Property C83: novelty detection does not depend on the units of the data, nor on the names of the inputs. *)
From Coq Require Import Reals Lra Psatz QArith Permutation Qreals.
From Verif Require Import Py Num Numpy Filters Registry Spec StructProofs RunProofs Reach RVec RMat RFilter
  Detection PropsRegistry PropsStability PropsAlgebra PropsSymmetry PropsUnits PropsDetection PropsESE.
Open Scope R_scope.

(** ** Specification *)
(** weight number i of the second history is weight number p[i] of the first one, in a unit f i times smaller *)
Definition same_weights (N c : nat) (w w' : rmat) (f : nat -> R) (p : list nat) : Prop :=
  Permutation p (seq 0 c) /\ (forall i, (i < c)%nat -> 0 < f i) /\
  forall k i, (k < N)%nat -> (i < c)%nat -> ent w' k i = f i * ent w k (nth i p 0%nat).

Section C83.
  Variable solve : list rvec -> list rvec -> option (list rvec).
  #[local] Hint Extern 0 (Num R) => exact (RNum solve) : typeclass_instances.
  Notation obj := (obj R).

  (** ** Lemmas *)
  Lemma sumn_seq c (g : nat -> R) : sumn c g = Rsum (map g (seq 0 c)).
  Proof. rewrite Rsum_sumn, map_length, seq_length. apply sumn_ext. intros i Hi. rewrite (map_nth_lt _ _ _ 0%nat) by (rewrite seq_length; exact Hi). rewrite seq_nth by exact Hi. reflexivity. Qed.
  Lemma sum_perm (u v : rvec) : Permutation u v -> Rsum u = Rsum v.
  Proof. induction 1; cbn [Rsum]; lra. Qed.
  Lemma sumn_perm c p (g : nat -> R) : Permutation p (seq 0 c) -> sumn c (fun i => g (nth i p 0%nat)) = sumn c g.
  Proof.
    intros Hp. rewrite !sumn_seq. transitivity (Rsum (map g p)); [|apply sum_perm, Permutation_map; exact Hp].
    f_equal. assert (Hl : length p = c) by (rewrite (Permutation_length Hp), seq_length; reflexivity). rewrite <- Hl.
    clear. induction p as [|a p IH]; [reflexivity|]. cbn [length seq map nth]. f_equal. rewrite <- IH, <- seq_shift, map_map. reflexivity.
  Qed.
  Lemma perm_lt c p i : Permutation p (seq 0 c) -> (i < c)%nat -> (nth i p 0 < c)%nat.
  Proof.
    intros Hp Hi. assert (Hin : In (nth i p 0%nat) p) by (apply nth_In; rewrite (Permutation_length Hp), seq_length; exact Hi).
    apply (Permutation_in _ Hp), in_seq in Hin. lia.
  Qed.
  Lemma bdiff_scale o a g k : bdiff o (fun t => a * g t) k = a * bdiff o g k.
  Proof. revert k. induction o as [|o IH]; intros k; cbn [bdiff]; [reflexivity|]. rewrite !IH. ring. Qed.
  Lemma wmean_scale a g m k : wmean (fun t => a * g t) m k = a * wmean g m k.
  Proof. unfold wmean, Rdiv. rewrite sumn_scal. ring. Qed.
  Lemma wstd_scale a g m k : 0 <= a -> wstd (fun t => a * g t) m k = a * wstd g m k.
  Proof.
    intros Ha. unfold wstd. rewrite wmean_scale.
    replace (sumn m (fun t => (a * g (k - m + t)%nat - a * wmean g m k) ^ 2) / INR m)
      with (a ^ 2 * (sumn m (fun t => (g (k - m + t)%nat - wmean g m k) ^ 2) / INR m)).
    - rewrite sqrt_mult_alt by (apply pow2_ge_0). rewrite sqrt_pow2 by exact Ha. reflexivity.
    - unfold Rdiv. rewrite <- Rmult_assoc, <- sumn_scal. f_equal. apply sumn_ext. intros; ring.
  Qed.
  Lemma series_scale N c w w' f p order k i : same_weights N c w w' f p -> (k < N)%nat -> (i < c)%nat ->
    le_series order w' i k = f i * le_series order w (nth i p 0%nat) k.
  Proof.
    intros (Hp & Hf & He) Hk Hi. unfold le_series. destruct (k <? order)%nat; [apply He; auto|].
    rewrite (bdiff_ext order (fun t => ent w' t i) (fun t => f i * ent w t (nth i p 0%nat))) by (intros; apply He; lia).
    rewrite bdiff_scale, Rabs_mult, (Rabs_right (f i)) by (apply Rle_ge, Rlt_le, Hf, Hi). reflexivity.
  Qed.
  Lemma above_scale a u v : 0 < a -> above (a * u) (a * v) = above u v.
  Proof.
    intros Ha. unfold above. destruct (Rlt_dec (a * u) (a * v)) as [H|H]; destruct (Rlt_dec u v) as [H'|H']; auto; exfalso.
    - apply H'. apply Rmult_lt_reg_l with a; assumption.
    - apply H. apply Rmult_lt_compat_l; assumption.
  Qed.

  (** ** C83 *)
  (** learning entropy with sensitivities: the very same series *)
  Theorem C83_LE_multiscale : forall N c w w' f p m order alphas, shape N c w -> shape N c w' -> same_weights N c w w' f p ->
    (0 < c)%nat -> (0 < m)%nat -> alphas <> [] ->
    learning_entropy c w' m (Z.of_nat order) (AlphaList alphas) = learning_entropy c w m (Z.of_nat order) (AlphaList alphas).
  Proof.
    intros N c w w' f p m order alphas Hw Hw' HS Hc Hm Ha. pose proof HS as (Hp & Hf & He).
    destruct (C41_fraction solve N c w m order alphas Hw Hc Hm Ha) as (le & E & Hl & H).
    destruct (C41_fraction solve N c w' m order alphas Hw' Hc Hm Ha) as (le' & E' & Hl' & H').
    rewrite E, E'. f_equal. f_equal. apply (nth_ext _ _ 0 0); [congruence|]. intros k Hk. rewrite Hl' in Hk. rewrite H, H' by exact Hk.
    destruct (Nat.ltb_spec k m) as [|Hkm]; [reflexivity|]. unfold le_fraction. f_equal. f_equal. apply map_ext. intros a.
    rewrite <- (sumn_perm c p (fun i => above (wmean (le_series order w i) m k * a) (le_series order w i k)) Hp).
    apply sumn_ext. intros i Hi.
    rewrite (wmean_ext _ (fun t => f i * le_series order w (nth i p 0%nat) t)) by (intros; apply (series_scale N c w w' f p); auto; lia).
    rewrite wmean_scale, (series_scale N c w w' f p order k i HS Hk Hi), Rmult_assoc. apply above_scale, Hf, Hi.
  Qed.

  (** learning entropy without sensitivities: every value keeps its sign and its place; in a smaller unit it grows, but by no
      more than the factor of the unit (the constant 1e-10 in the denominator has the unit of the weights) *)
  Theorem C83_LE_direct : forall N c w w' f p m order alpha, shape N c w -> shape N c w' -> same_weights N c w w' f p ->
    (0 < m)%nat -> falsy alpha ->
    exists le le', learning_entropy c w m (Z.of_nat order) alpha = Ok (LeMatrix le) /\
      learning_entropy c w' m (Z.of_nat order) alpha = Ok (LeMatrix le') /\
      forall k i, (k < N)%nat -> (i < c)%nat ->
        exists q, ent le' k i = q * ent le k (nth i p 0%nat) /\ Rmin 1 (f i) <= q <= Rmax 1 (f i).
  Proof.
    intros N c w w' f p m order alpha Hw Hw' HS Hm Ha. pose proof HS as (Hp & Hf & He).
    destruct (C40_direct solve N c w m order alpha Hw Hm Ha) as (le & E & Hl & H).
    destruct (C40_direct solve N c w' m order alpha Hw' Hm Ha) as (le' & E' & Hl' & H').
    exists le, le'. split; [exact E|]. split; [exact E'|]. intros k i Hk Hi. rewrite H' by assumption. rewrite H by (auto using perm_lt).
    destruct (Nat.ltb_spec k m) as [|Hkm].
    { exists 1. split; [ring|]. split; [apply Rmin_l|apply Rmax_l]. }
    pose proof (Hf i Hi) as Hfi. set (j := nth i p 0%nat).
    rewrite (wmean_ext _ (fun t => f i * le_series order w j t)) by (intros; apply (series_scale N c w w' f p); auto; lia).
    rewrite (wstd_ext _ (fun t => f i * le_series order w j t)) by (intros; apply (series_scale N c w w' f p); auto; lia).
    rewrite wmean_scale, wstd_scale, (series_scale N c w w' f p order k i HS Hk Hi) by lra. fold j.
    set (S0 := wstd (le_series order w j) m k). assert (HS0 : 0 <= S0) by apply sqrt_pos.
    set (D := le_series order w j k). set (A := wmean (le_series order w j) m k). set (eps := / 10 ^ 10).
    assert (Heps : 0 < eps) by (unfold eps; apply Rinv_0_lt_compat, pow_lt; lra). clearbody eps S0 D A.
    pose proof (Rmult_le_pos (f i) S0 (Rlt_le _ _ Hfi) HS0) as HfS. generalize dependent (f i). intros g Hfi HfS.
    assert (H1 : 0 < g * S0 + eps) by lra. assert (H2 : 0 < S0 + eps) by lra.
    exists (g * (S0 + eps) / (g * S0 + eps)). split; [field; lra|].
    assert (HQ : g * (S0 + eps) / (g * S0 + eps) * (g * S0 + eps) = g * S0 + g * eps) by (field; lra).
    set (q := g * (S0 + eps) / (g * S0 + eps)) in *. clearbody q.
    pose proof (Rmult_le_pos g (g * S0) (Rlt_le _ _ Hfi) HfS) as HgfS.
    split; apply Rmult_le_reg_r with (g * S0 + eps); auto; rewrite HQ; unfold Rmin, Rmax; destruct (Rle_dec 1 g) as [Hg|Hg].
    - pose proof (Rmult_le_compat_r eps 1 g (Rlt_le _ _ Heps) Hg). lra.
    - assert (Hg' : g <= 1) by lra. pose proof (Rmult_le_compat_r (g * S0) g 1 HfS Hg'). lra.
    - pose proof (Rmult_le_compat_r (g * S0) 1 g HfS Hg). lra.
    - assert (Hg' : g <= 1) by lra. pose proof (Rmult_le_compat_r eps g 1 (Rlt_le _ _ Heps) Hg'). lra.
  Qed.

  (** ELBND: weights in a unit a times smaller and errors in a unit t times smaller multiply every value by a t *)
  Theorem C83_ELBND : forall N c w w' p e a t, shape N c w -> shape N c w' -> same_weights N c w w' (fun _ => a) p ->
    length e = N -> (0 < c)%nat -> 0 <= t -> forall function,
    ELBND c w' (map (Rmult t) e) function = rmap (map (Rmult (a * t))) (ELBND c w e function).
  Proof.
    intros N c w w' p e a t Hw Hw' (Hp & Hf & He) Hle Hc Ht fn.
    destruct (C39_values solve N c w e Hw Hle Hc) as (mx & sm & E1 & E2 & L1 & L2 & H).
    destruct (C39_values solve N c w' (map (Rmult t) e) Hw' ltac:(rewrite map_length; exact Hle) Hc) as (mx' & sm' & E1' & E2' & L1' & L2' & H').
    assert (Ha : 0 < a) by (apply (Hf 0%nat); exact Hc). assert (Hat : 0 <= a * t) by nra.
    assert (HV : forall k, (k < N)%nat -> forall i, (i < c)%nat ->
      (if (S k <? N)%nat then Rabs ((ent w' (S k) i - ent w' k i) * nth k (map (Rmult t) e) 0) else 0) =
      a * t * (if (S k <? N)%nat then Rabs ((ent w (S k) (nth i p 0%nat) - ent w k (nth i p 0%nat)) * nth k e 0) else 0)).
    { intros k Hk i Hi. destruct (Nat.ltb_spec (S k) N) as [HSk|]; [|ring]. rewrite !He by (auto; lia).
      rewrite (map_nth_lt _ _ _ 0) by lia. rewrite <- (Rabs_right (a * t)) by lra. rewrite <- Rabs_mult. f_equal. ring. }
    destruct (String.eqb_spec fn "max") as [->|Nm]; [|destruct (String.eqb_spec fn "sum") as [->|Ns]].
    - rewrite E1, E1'. cbn [rmap]. f_equal. apply (nth_ext _ _ 0 0); [rewrite map_length; congruence|]. intros k Hk. rewrite L1' in Hk.
      rewrite (map_nth_lt _ _ _ 0) by lia. destruct (H k Hk) as (((i & Hi & Hm) & Hmax) & _). destruct (H' k Hk) as (((j & Hj & Hm') & Hmax') & _).
      apply Rle_antisym.
      + rewrite Hm', HV by assumption. apply Rmult_le_compat_l; [exact Hat|]. apply Hmax. apply perm_lt; assumption.
      + rewrite Hm. assert (Hin : In i p) by (apply (Permutation_in _ (Permutation_sym Hp)), in_seq; lia).
        apply (In_nth _ _ 0%nat) in Hin as (q & Hq & Hqi). rewrite (Permutation_length Hp), seq_length in Hq.
        rewrite <- Hqi. rewrite <- (HV k Hk q Hq). apply Hmax'. exact Hq.
    - rewrite E2, E2'. cbn [rmap]. f_equal. apply (nth_ext _ _ 0 0); [rewrite map_length; congruence|]. intros k Hk. rewrite L2' in Hk.
      rewrite (map_nth_lt _ _ _ 0) by lia. destruct (H k Hk) as (_ & ->). destruct (H' k Hk) as (_ & ->).
      rewrite <- (sumn_perm c p (fun i => if (S k <? N)%nat then Rabs ((ent w (S k) i - ent w k i) * nth k e 0) else 0) Hp). rewrite <- sumn_scal. apply sumn_ext. intros i Hi. apply HV; assumption.
    - rewrite !C39_unknown_function by assumption. reflexivity.
  Qed.

  (** *** ESE *)
  Section ESE.
    Variable sort : rvec -> rvec.
    Hypothesis Hsort : sorts sort.
    Variable fit : rvec -> R -> result (R * R * R).
    Variable cdf : R -> R -> R -> R -> R.
    (** scipy's maximum-likelihood fit in another unit: same shape, location and scale in the new unit *)
    Definition unit_free : Prop :=
      (forall a data t, 0 < a -> fit (vsc a data) (a * t) = rmap (fun '(c, loc, scale) => (c, a * loc, a * scale)) (fit data t)) /\
      (forall a v c loc scale, 0 < a -> cdf (a * v) c (a * loc) (a * scale) = cdf v c loc scale).

    Lemma ascending_unique (u v : rvec) : Permutation u v -> ascending u -> ascending v -> u = v.
    Proof.
      revert v; induction u as [|a u IH]; intros [|b v] HP Hu Hv.
      - reflexivity.
      - apply Permutation_nil in HP. discriminate.
      - apply Permutation_sym, Permutation_nil in HP. discriminate.
      - destruct (ascending_tail _ _ Hu) as (Hu1 & Hu2). destruct (ascending_tail _ _ Hv) as (Hv1 & Hv2).
        assert (a = b).
        { apply Rle_antisym.
          - assert (Hin : In b (a :: u)) by (apply (Permutation_in _ (Permutation_sym HP)); left; reflexivity).
            destruct Hin as [->|Hin]; [apply Rle_refl|apply Hu2; exact Hin].
          - assert (Hin : In a (b :: v)) by (apply (Permutation_in _ HP); left; reflexivity).
            destruct Hin as [->|Hin]; [apply Rle_refl|apply Hv2; exact Hin]. }
        subst b. f_equal. apply IH; auto. apply Permutation_cons_inv in HP. exact HP.
    Qed.
    Lemma sort_scale a v : 0 < a -> sort (vsc a v) = vsc a (sort v).
    Proof.
      intros Ha. destruct (Hsort v) as (P1 & A1). destruct (Hsort (vsc a v)) as (P2 & A2). apply ascending_unique; auto.
      - eapply perm_trans; [exact P2|]. apply Permutation_map, Permutation_sym. exact P1.
      - intros i j Hij. unfold vsc in Hij. rewrite map_length in Hij. rewrite !nth_vsc. apply Rmult_le_compat_l; [lra|]. apply A1; exact Hij.
    Qed.
    Lemma map_firstn' {A B} (g : A -> B) k l : firstn k (map g l) = map g (firstn k l).
    Proof. revert k; induction l as [|x l IH]; intros [|k]; cbn; f_equal; auto. Qed.
    Lemma map_skipn' {A B} (g : A -> B) k l : skipn k (map g l) = map g (skipn k l).
    Proof. revert k; induction l as [|x l IH]; intros [|k]; cbn; auto. Qed.
    Lemma pot_scale a data method : 0 < a -> pot sort (vsc a data) method = rmap (vsc a) (pot sort data method).
    Proof.
      intros Ha. unfold pot. replace (length (vsc a data)) with (length data) by (symmetry; apply vsc_length).
      assert (HE : map nopp (sort (map nopp (vsc a data))) = vsc a (map nopp (sort (map nopp data)))).
      { change (@nopp R _) with Ropp. replace (map Ropp (vsc a data)) with (vsc a (map Ropp data)).
        - rewrite sort_scale by exact Ha. unfold vsc. rewrite !map_map. apply map_ext. intros; ring.
        - unfold vsc. rewrite !map_map. apply map_ext. intros; ring. }
      rewrite HE. destruct (pot_count (length data) method) as [k|e]; [|reflexivity]. cbn [rmap]. f_equal. unfold slice_to, slice_idx.
      generalize (map nopp (sort (map nopp data))) as u. intros u. rewrite vsc_length. unfold vsc. rewrite map_firstn'. reflexivity.
    Qed.
    Lemma cell_scale a col window i method : unit_free -> 0 < a ->
      ese_cell sort fit cdf (vsc a col) window i method = ese_cell sort fit cdf col window i method.
    Proof.
      intros (Hfit & Hcdf) Ha. unfold ese_cell.
      assert (Hsl : slice (vsc a col) (i - window) i = vsc a (slice col (i - window) i)).
      { unfold slice, vsc. rewrite map_skipn', map_firstn'. reflexivity. }
      rewrite Hsl, pot_scale by exact Ha. change (@n0 R _) with 0. rewrite nth_vsc. destruct (pot sort (slice col (i - window) i) method) as [po|e]; [|reflexivity].
      cbn [rmap rbind]. unfold vsc at 1. rewrite <- map_rev. destruct (rev po) as [|t q]; [reflexivity|]. cbn [map].
      change (@nltb R _) with Rltb. change (@nleb R _) with Rleb.
      assert (Hlt : forall u v, Rltb (a * u) (a * v) = Rltb u v).
      { intros u v. unfold Rltb. destruct (Rlt_dec (a * u) (a * v)) as [H|H]; destruct (Rlt_dec u v) as [H'|H']; auto; exfalso.
        - apply H'. apply Rmult_lt_reg_l with a; assumption.
        - apply H. apply Rmult_lt_compat_l; assumption. }
      assert (Hle : forall u v, Rleb (a * u) (a * v) = Rleb u v).
      { intros u v. unfold Rleb. destruct (Rle_dec (a * u) (a * v)) as [H|H]; destruct (Rle_dec u v) as [H'|H']; auto; exfalso.
        - apply H'. apply Rmult_le_reg_l with a; assumption.
        - apply H. apply Rmult_le_compat_l; [lra|assumption]. }
      rewrite Hlt. destruct (Rltb t (nth i col 0)); [|reflexivity]. rewrite Hfit by exact Ha.
      destruct (fit po t) as [[[c loc] scale]|e]; [|reflexivity]. cbn [rmap rbind]. rewrite Hle, Hcdf by exact Ha. reflexivity.
    Qed.
    Lemma sequence_perm {A} (l l' : list (result A)) : Permutation l l' -> forall r, sequence l = Ok r ->
      exists r', sequence l' = Ok r' /\ Permutation r r'.
    Proof.
      induction 1 as [|x l l' HP IH|x y l|l l' l'' H1 IH1 H2 IH2]; intros r Hr.
      - exists r. split; auto.
      - cbn [sequence] in *. destruct x as [a|]; [|discriminate]. cbn [rbind] in *. destruct (sequence l) as [q|]; [|discriminate].
        injection Hr as <-. destruct (IH q eq_refl) as (q' & -> & Hq). exists (a :: q'). split; [reflexivity|]. constructor; exact Hq.
      - cbn [sequence] in *. destruct y as [b|]; [|discriminate]. destruct x as [a|]; [|discriminate]. cbn [rbind] in *.
        destruct (sequence l) as [q|]; [|discriminate]. injection Hr as <-. exists (a :: b :: q). split; [reflexivity|]. apply perm_swap.
      - destruct (IH1 r Hr) as (r1 & E1 & P1). destruct (IH2 r1 E1) as (r2 & E2 & P2). exists r2. split; [exact E2|]. eapply perm_trans; eauto.
    Qed.
    Lemma prod_perm (u v : rvec) : Permutation u v -> forall a, fold_left Rmult u a = fold_left Rmult v a.
    Proof.
      induction 1 as [|x l l' HP IH|x y l|l l' l'' H1 IH1 H2 IH2]; intros a; cbn [fold_left]; auto.
      - f_equal. ring.
      - rewrite IH1. apply IH2.
    Qed.
    Lemma map_seq_perm {B} c p (g : nat -> B) : Permutation p (seq 0 c) -> Permutation (map (fun i => g (nth i p 0%nat)) (seq 0 c)) (map g (seq 0 c)).
    Proof.
      intros Hp. assert (Hl : length p = c) by (rewrite (Permutation_length Hp), seq_length; reflexivity).
      eapply perm_trans; [|apply Permutation_map; exact Hp]. rewrite <- Hl. clear.
      assert (E : map (fun i => g (nth i p 0%nat)) (seq 0 (length p)) = map g p).
      { induction p as [|a p IH]; [reflexivity|]. cbn [length seq map nth]. f_equal. rewrite <- IH, <- seq_shift, map_map. reflexivity. }
      rewrite E. apply Permutation_refl.
    Qed.
    Lemma increments_scale N c w w' f p i : shape N c w -> shape N c w' -> same_weights N c w w' f p -> (i < c)%nat ->
      column i (ese_dw w') = vsc (f i) (column (nth i p 0%nat) (ese_dw w)).
    Proof.
      intros Hw Hw' (Hp & Hf & He) Hi. destruct (ese_dw_ok solve N c w Hw) as ((L1 & F1) & V1). destruct (ese_dw_ok solve N c w' Hw') as ((L2 & F2) & V2).
      apply (nth_ext _ _ 0 0); [rewrite vsc_length, !(column_len solve); congruence|].
      intros k Hk. rewrite (column_len solve), L2 in Hk. rewrite nth_vsc, !(column_nth solve) by lia. fold (ent (ese_dw w') k i).
      rewrite V1, V2 by (auto using perm_lt). destruct (Nat.eqb_spec k 0) as [->|Hk0]; [apply He; auto; lia|].
      rewrite !He by (auto; lia). rewrite <- Rmult_minus_distr_l, Rabs_mult, (Rabs_right (f i)) by (apply Rle_ge, Rlt_le, Hf, Hi). reflexivity.
    Qed.

    (** the very same values *)
    Theorem C83_ESE : forall N c w w' f p window method r, unit_free -> shape N c w -> shape N c w' -> same_weights N c w w' f p ->
      ESE sort fit cdf c w window method = Ok r -> ESE sort fit cdf c w' window method = Ok r.
    Proof.
      intros N c w w' f p window method r HU Hw Hw' HS HE. pose proof HS as (Hp & Hf & He).
      destruct (ese_dw_ok solve N c w Hw) as ((L1 & _) & _). destruct (ese_dw_ok solve N c w' Hw') as ((L2 & _) & _).
      unfold ESE in HE |- *. cbv zeta in HE |- *. rewrite L1 in HE. rewrite L2. destruct (N <? window)%nat; [discriminate|].
      set (row := fun A i => sequence (map (fun j => ese_cell sort fit cdf (column j A) window i method) (seq 0 c))) in *.
      assert (HR : forall i h, row (ese_dw w) i = Ok h -> exists h', row (ese_dw w') i = Ok h' /\ Permutation h h').
      { intros i h Hh. apply (sequence_perm _ _ (Permutation_sym (map_seq_perm c p (fun j => ese_cell sort fit cdf (column j (ese_dw w)) window i method) Hp))) in Hh.
        destruct Hh as (h' & E & P). exists h'. split; [|exact P]. unfold row. rewrite <- E. f_equal. apply map_ext_in. intros j Hj.
        apply in_seq in Hj. rewrite (increments_scale N c w w' f p j Hw Hw' HS) by lia. apply cell_scale; [exact HU|apply Hf; lia]. }
      change (map (fun i => sequence (map (fun j => ese_cell sort fit cdf (column j (ese_dw w)) window i method) (seq 0 c))) (seq window (N - window)))
        with (map (row (ese_dw w)) (seq window (N - window))) in HE.
      change (map (fun i => sequence (map (fun j => ese_cell sort fit cdf (column j (ese_dw w')) window i method) (seq 0 c))) (seq window (N - window)))
        with (map (row (ese_dw w')) (seq window (N - window))).
      destruct (sequence (map (row (ese_dw w)) (seq window (N - window)))) as [hpp|e] eqn:Es; [|discriminate]. cbn [rmap] in HE.
      assert (HQ : exists hpp', sequence (map (row (ese_dw w')) (seq window (N - window))) = Ok hpp' /\
        map (fun h => nopp (nlog10 (fold_left nmul h n1))) hpp' = map (fun h => nopp (nlog10 (fold_left nmul h n1))) hpp).
      { clear HE. revert hpp Es. induction (seq window (N - window)) as [|i l IH]; intros hpp Es; cbn [map sequence] in Es |- *.
        - injection Es as <-. exists []. split; reflexivity.
        - destruct (row (ese_dw w) i) as [h|] eqn:Ei; [|discriminate]. cbn [rbind] in Es.
          destruct (sequence (map (row (ese_dw w)) l)) as [q|]; [|discriminate]. injection Es as <-.
          destruct (IH q eq_refl) as (q' & E' & M'). destruct (HR i h Ei) as (h' & Eh & Ph). rewrite Eh, E'. cbn [rbind rmap].
          exists (h' :: q'). split; [reflexivity|]. cbn [map]. f_equal; [|exact M'].
          change (- (ln (fold_left Rmult h' 1) / ln 10) = - (ln (fold_left Rmult h 1) / ln 10)). rewrite (prod_perm h h' Ph). reflexivity. }
      destruct HQ as (hpp' & -> & HM). cbn [rmap]. rewrite HM. exact HE.
    Qed.
  End ESE.

  (** *** From the data to the detectors *)
  Lemma history_shape n (o o' : obj) d x y e w : wf n o -> rowsl n x -> run d x o = (o', Ok (y, e, w)) ->
    shape (length x) n w /\ length e = length x.
  Proof.
    intros Hwf Hx E. destruct (run_lengths solve n o o' d x y e w Hwf Hx E) as (_ & _ & _ & He & Hw & _ & _ & Ew & _).
    split; [|exact He]. split; [exact Hw|]. rewrite Ew. exact (wtrace_rows n d x o Hwf Hx).
  Qed.
  Lemma scaled_weights N n (w : rmat) a : shape N n w -> 0 < a ->
    shape N n (map (vsc a) w) /\ same_weights N n w (map (vsc a) w) (fun _ => a) (seq 0 n).
  Proof.
    intros Hw Ha. pose proof Hw as (Hl & HF). split.
    - split; [rewrite map_length; exact Hl|]. rewrite Forall_map. eapply Forall_impl; [|exact HF]. intros v Hv. rewrite vsc_length. exact Hv.
    - split; [apply Permutation_refl|]. split; [intros; exact Ha|]. intros k i Hk Hi. rewrite seq_nth by exact Hi. cbn [plus]. unfold ent.
      rewrite (map_nth_lt _ _ _ ([] : rvec)) by lia. apply nth_vsc.
  Qed.
  Lemma permuted_weights N n (w : rmat) p : shape N n w -> Permutation p (seq 0 n) ->
    shape N n (map (permute p) w) /\ same_weights N n w (map (permute p) w) (fun _ => 1) p.
  Proof.
    intros Hw Hp. pose proof Hw as (Hl & HF). split.
    - split; [rewrite map_length; exact Hl|]. rewrite Forall_map. eapply Forall_impl; [|exact HF]. intros v Hv. apply permute_len. exact Hp.
    - split; [exact Hp|]. split; [intros; lra|]. intros k i Hk Hi. unfold ent. rewrite (map_nth_lt _ _ _ ([] : rvec)) by lia.
      unfold permute. rewrite (map_nth_lt _ _ _ 0%nat) by (rewrite (Permutation_length Hp), seq_length; exact Hi). ring.
  Qed.

  (** Inputs measured in a unit s times smaller, targets in a unit t times smaller, arguments of the constructor converted
      (C57): learning entropy with sensitivities and ESE flag the same samples with the same values, ELBND changes its unit. *)
  Theorem C83_units_of_the_data : forall rng k (kw : kwargs R) n s t (o1 : obj) d x y e w,
    0 < s -> 0 < t -> rng_ok rng -> sane_kw kw -> kw_n kw = Some (Z.of_nat n) -> units_given k kw ->
    (k = KAP -> homogeneous_solver solve) -> (0 < n)%nat ->
    new_filter rng k kw = Ok o1 -> rows_of n x -> snd (run d x o1) = Ok (y, e, w) ->
    exists o2 y' e' w', new_filter rng k (in_units k s t kw) = Ok o2 /\
      snd (run (map (Rmult t) d) (map (vsc s) x) o2) = Ok (y', e', w') /\
      (forall m order alphas, (0 < m)%nat -> alphas <> [] ->
        learning_entropy n w' m (Z.of_nat order) (AlphaList alphas) = learning_entropy n w m (Z.of_nat order) (AlphaList alphas)) /\
      (forall function, ELBND n w' e' function = rmap (map (Rmult (t / s * t))) (ELBND n w e function)) /\
      (forall sort fit cdf window method r, sorts sort -> unit_free fit cdf ->
        ESE sort fit cdf n w window method = Ok r -> ESE sort fit cdf n w' window method = Ok r).
  Proof.
    intros rng k kw n s t o1 d x y e w Hs Ht Hrng Hsane Hn Hg Hap Hn0 H1 Hx HR.
    destruct (C57_change_of_units solve rng k kw n s t o1 d x Hs Ht Hrng Hsane Hn Hg Hap H1 Hx) as (o2 & H2 & HR2).
    rewrite HR in HR2. cbn [rmap] in HR2. exists o2, (map (Rmult t) y), (map (Rmult t) e), (map (vsc (t / s)) w).
    split; [exact H2|]. split; [exact HR2|].
    assert (Hwf : wf n o1) by (apply reachable_wf; apply (reach_new n rng k kw o1); assumption).
    destruct (run d x o1) as [o' r] eqn:E. cbn [snd] in HR. subst r. destruct (history_shape n o1 o' d x y e w Hwf Hx E) as (Hw & He).
    assert (Ha : 0 < t / s) by (apply Rdiv_lt_0_compat; assumption).
    destruct (scaled_weights (length x) n w (t / s) Hw Ha) as (Hw' & HS). split; [|split].
    - intros m order alphas Hm Hal. apply (C83_LE_multiscale (length x) n w _ _ _ m order alphas Hw Hw' HS Hn0 Hm Hal).
    - intros fn. apply (C83_ELBND (length x) n w _ _ e (t / s) t Hw Hw' HS He Hn0). lra.
    - intros sort fit cdf window method r Hsrt HU. apply (C83_ESE sort Hsrt fit cdf (length x) n w _ _ _ window method r HU Hw Hw' HS).
  Qed.

  (** Inputs (with their initial weights) listed in another order: all three detectors return the same series. *)
  Theorem C83_names_of_the_inputs : forall rng k (kw : kwargs R) n p v (o1 o2 : obj) d x y e w,
    Permutation p (seq 0 n) -> rng_ok rng -> sane_kw kw -> kw_n kw = Some (Z.of_nat n) -> (0 < n)%nat ->
    new_filter rng k (with_weights kw v) = Ok o1 -> new_filter rng k (with_weights kw (permute p v)) = Ok o2 ->
    rows_of n x -> snd (run d x o1) = Ok (y, e, w) ->
    exists w', snd (run d (map (permute p) x) o2) = Ok (y, e, w') /\
      (forall m order alphas, (0 < m)%nat -> alphas <> [] ->
        learning_entropy n w' m (Z.of_nat order) (AlphaList alphas) = learning_entropy n w m (Z.of_nat order) (AlphaList alphas)) /\
      (forall function, ELBND n w' e function = ELBND n w e function) /\
      (forall sort fit cdf window method r, sorts sort -> unit_free fit cdf ->
        ESE sort fit cdf n w window method = Ok r -> ESE sort fit cdf n w' window method = Ok r).
  Proof.
    intros rng k kw n p v o1 o2 d x y e w Hp Hrng Hsane Hn Hn0 H1 H2 Hx HR.
    pose proof (C30_permutation solve rng k kw n p v o1 o2 d x Hp Hrng Hsane Hn H1 H2 Hx) as HR2.
    rewrite HR in HR2. cbn [rmap] in HR2. exists (map (permute p) w). split; [exact HR2|].
    assert (Hwf : wf n o1) by (apply reachable_wf; apply (reach_new n rng k (with_weights kw v) o1); assumption).
    destruct (run d x o1) as [o' r] eqn:E. cbn [snd] in HR. subst r. destruct (history_shape n o1 o' d x y e w Hwf Hx E) as (Hw & He).
    destruct (permuted_weights (length x) n w p Hw Hp) as (Hw' & HS). split; [|split].
    - intros m order alphas Hm Hal. apply (C83_LE_multiscale (length x) n w _ _ _ m order alphas Hw Hw' HS Hn0 Hm Hal).
    - intros fn. pose proof (C83_ELBND (length x) n w _ _ e 1 1 Hw Hw' HS He Hn0 ltac:(lra) fn) as HB.
      replace (map (Rmult 1) e) with e in HB by (symmetry; rewrite <- (map_id e) at 2; apply map_ext; intros; ring).
      rewrite HB. destruct (ELBND n w e fn) as [u|ex]; [|reflexivity]. cbn [rmap]. f_equal.
      rewrite <- (map_id u) at 2. apply map_ext. intros; ring.
    - intros sort fit cdf window method r Hsrt HU. apply (C83_ESE sort Hsrt fit cdf (length x) n w _ _ _ window method r HU Hw Hw' HS).
  Qed.

  (** *** The hypotheses can be met *)
  Example C83_hypotheses :
    shape 4 2 det_w /\ same_weights 4 2 det_w [[3; 0]; [3; 4]; [12; 4]; [9; 6]] (fun i => if (i =? 0)%nat then 3 else 2) [1; 0]%nat /\
    unit_free (fun _ t => Ok (0, t, 0)) (fun v _ loc _ => if Rle_dec v loc then 0 else 1).
  Proof.
    split; [split; [reflexivity|repeat constructor]|]. split.
    - split; [apply perm_swap|]. split; [intros i Hi; destruct i as [|[|i]]; [| |lia]; cbn; lra|].
      intros k i Hk Hi. destruct k as [|[|[|[|k]]]]; try lia; (destruct i as [|[|i]]; [| |lia]); unfold ent; cbn; lra.
    - split; [intros; cbn; rewrite Rmult_0_r; reflexivity|]. intros a v c loc scale Ha.
      destruct (Rle_dec (a * v) (a * loc)) as [H|H]; destruct (Rle_dec v loc) as [H'|H']; auto; exfalso.
      + apply H'. apply Rmult_le_reg_l with a; assumption.
      + apply H. apply Rmult_le_compat_l; [lra|assumption].
  Qed.
End C83.
