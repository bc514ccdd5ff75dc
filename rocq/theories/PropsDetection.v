(** Properties C39-C43: ELBND, learning entropy, peak over threshold, ESE. *)
From Coq Require Import Reals Lra Psatz QArith Permutation Qreals.
From Verif Require Import Py Num NumQ NumF Numpy Filters Spec StructProofs RunProofs Reach RVec RMat RFilter
  Detection PropsRun PropsStability PropsAlgebra.
Open Scope R_scope.

(** ** Specification *)
(** m is the maximum of f 0 .. f (c-1) *)
Definition is_max (c : nat) (f : nat -> R) (m : R) : Prop :=
  (exists i, (i < c)%nat /\ m = f i) /\ forall i, (i < c)%nat -> f i <= m.

(** the o-fold backward difference of a series at time k *)
Fixpoint bdiff (o : nat) (f : nat -> R) (k : nat) : R :=
  match o with O => f k | S o' => bdiff o' f k - bdiff o' f (k - 1) end.

(** mean and standard deviation of f over the m samples before k *)
Definition wmean (f : nat -> R) (m k : nat) : R := sumn m (fun t => f (k - m + t)%nat) / INR m.
Definition wstd (f : nat -> R) (m k : nat) : R :=
  sqrt (sumn m (fun t => (f (k - m + t)%nat - wmean f m k) ^ 2) / INR m).

Section Det.
  Variable solve : list rvec -> list rvec -> option (list rvec).
  #[local] Hint Extern 0 (Num R) => exact (RNum solve) : typeclass_instances.
  Notation obj := (obj R).
  Implicit Types w : rmat.

  (** ** Differences *)
  Lemma map2_nth' {X Y Z : Type} (f : X -> Y -> Z) (u : list X) (v : list Y) i a b c :
    (i < length u)%nat -> (i < length v)%nat -> nth i (map2 f u v) c = f (nth i u a) (nth i v b).
  Proof. revert v i; induction u as [|x u IH]; intros [|y v] [|i] H1 H2; simpl in *; try lia; auto. apply IH; lia. Qed.
  Lemma tl_nth {A} (l : list A) i d : nth i (tl l) d = nth (S i) l d.
  Proof. destruct l; simpl; auto. destruct i; auto. Qed.
  Lemma tl_len {A} (l : list A) : length (tl l) = (length l - 1)%nat.
  Proof. destruct l; simpl; auto; lia. Qed.

  Lemma diff1_len (A : rmat) : length (diff1 A) = (length A - 1)%nat.
  Proof. unfold diff1. rewrite map2_len, tl_len. lia. Qed.
  Lemma shape_intro r c (A : rmat) : length A = r -> (forall i, (i < r)%nat -> length (nth i A []) = c) -> shape r c A.
  Proof.
    intros Hl H; split; auto. apply Forall_forall. intros x Hx. apply (In_nth _ _ []) in Hx as (i & Hi & <-). apply H; lia.
  Qed.
  Lemma diff1_ok N c (A : rmat) : shape N c A -> shape (N - 1) c (diff1 A) /\
    forall r i, (r < N - 1)%nat -> (i < c)%nat -> ent (diff1 A) r i = ent A (S r) i - ent A r i.
  Proof.
    intros HA. pose proof HA as (Hl & _).
    assert (Hrow : forall r, (r < N - 1)%nat -> nth r (diff1 A) [] = map2 Rminus (nth (S r) A []) (nth r A [])).
    { intros r Hr. unfold diff1. rewrite (map2_nth' _ _ _ _ [] []) by (rewrite ?tl_len; lia). rewrite tl_nth. reflexivity. }
    split.
    - apply shape_intro; [rewrite diff1_len; lia|]. intros r Hr. rewrite Hrow by auto.
      rewrite map2_len, !(shape_row N c) by (auto; lia). lia.
    - intros r i Hr Hi. unfold ent. rewrite Hrow by auto.
      rewrite (map2_nth' _ _ _ _ 0 0) by (rewrite (shape_row N c) by (auto; lia); auto). reflexivity.
  Qed.
  Lemma diffn_ok N c (A : rmat) o : shape N c A -> shape (N - o) c (diffn o A) /\
    forall r i, (r < N - o)%nat -> (i < c)%nat -> ent (diffn o A) r i = bdiff o (fun k => ent A k i) (r + o)%nat.
  Proof.
    intros HA. induction o as [|o (IH1 & IH2)]; cbn [diffn bdiff].
    - rewrite Nat.sub_0_r. split; [exact HA|]. intros r i Hr Hi. rewrite Nat.add_0_r. reflexivity.
    - destruct (diff1_ok _ c _ IH1) as (H1 & H2). replace (N - S o)%nat with (N - o - 1)%nat by lia. split; auto.
      intros r i Hr Hi. rewrite H2 by auto. rewrite !IH2 by (auto; lia).
      replace (r + S o)%nat with (S r + o)%nat by lia. replace (S r + o - 1)%nat with (r + o)%nat by lia. reflexivity.
  Qed.
  Lemma mabs_ok r c (A : rmat) : shape r c A -> shape r c (mabs A) /\
    forall i j, (i < r)%nat -> (j < c)%nat -> ent (mabs A) i j = Rabs (ent A i j).
  Proof.
    intros HA. pose proof HA as (Hl & HF). split.
    - split; [unfold mabs; rewrite map_length; auto|]. unfold mabs. apply Forall_map. eapply Forall_impl; [|exact HF].
      intros v Hv; rewrite map_length; auto.
    - intros i j Hi Hj. unfold ent, mabs. rewrite (map_nth_lt _ _ _ ([] : rvec)) by lia.
      rewrite (map_nth_lt _ _ _ 0) by (rewrite (shape_row r c) by auto; auto). reflexivity.
  Qed.
  Lemma app_ok r1 r2 c (A B : rmat) : shape r1 c A -> shape r2 c B -> shape (r1 + r2) c (A ++ B) /\
    forall i j, ent (A ++ B) i j = if (i <? r1)%nat then ent A i j else ent B (i - r1) j.
  Proof.
    intros (H1 & H2) (H3 & H4). split.
    - split; [rewrite app_length; lia|apply Forall_app; auto].
    - intros i j. unfold ent. destruct (Nat.ltb_spec i r1).
      + rewrite app_nth1 by lia. reflexivity.
      + rewrite app_nth2 by lia. rewrite H1. reflexivity.
  Qed.

  (** ** C39 ELBND *)
  Lemma elbnd_dw_ok N c w : shape N c w -> shape N c (elbnd_dw c w) /\
    forall k i, (k < N)%nat -> (i < c)%nat ->
      ent (elbnd_dw c w) k i = if (S k <? N)%nat then Rabs (ent w (S k) i - ent w k i) else 0.
  Proof.
    intros Hw. pose proof Hw as (Hl & _). destruct (diff1_ok N c w Hw) as (D1 & D2).
    destruct (mabs_ok _ c _ D1) as (M1 & M2).
    destruct N as [|N].
    - destruct w; [|discriminate]. split; [split; [reflexivity|constructor]|]. intros; lia.
    - assert (Ht : match w with [] => [] | _ => [zeros c] end = [zeros c : rvec]) by (destruct w; [discriminate|reflexivity]).
      unfold elbnd_dw. rewrite Ht.
      assert (HZ : shape 1 c [zeros c : rvec]) by (split; [reflexivity|repeat constructor; apply repeat_length]).
      destruct (app_ok _ _ c _ _ M1 HZ) as (A1 & A2). replace (S N - 1 + 1)%nat with (S N) in A1 by lia.
      split; auto. intros k i Hk Hi. rewrite A2.
      destruct (Nat.ltb_spec k (S N - 1)); destruct (Nat.ltb_spec (S k) (S N)); try lia.
      + rewrite M2, D2 by lia. reflexivity.
      + replace (k - (S N - 1))%nat with 0%nat by lia. unfold ent, zeros; simpl.
        clear - Hi. revert i Hi. induction c as [|c IH]; intros i Hi; [lia|]. destruct i; simpl; auto. apply IH; lia.
  Qed.

  Lemma vmax_ge (l : rvec) : forall a, a <= vmax a l /\ (forall b, In b l -> b <= vmax a l) /\ (vmax a l = a \/ In (vmax a l) l).
  Proof.
    unfold vmax. induction l as [|b l IH]; intros a; cbn [fold_left].
    - split; [lra|]. split; [intros ? []|auto].
    - destruct (IH (nmax a b)) as (H1 & H2 & H3).
      assert (Hm : a <= nmax a b /\ b <= nmax a b /\ (nmax a b = a \/ nmax a b = b)).
      { unfold nmax; simpl. unfold Rltb, Reqb. destruct (Req_EM_T b b) as [_|Hb]; [|destruct (Hb eq_refl)]. destruct (Rlt_dec a b); split; [lra| |lra|]; split; auto; lra. }
      destruct Hm as (Hm1 & Hm2 & Hm3). split; [lra|]. split.
      + intros x [<-|Hx]; [lra|auto].
      + destruct H3 as [H3|H3]; [|right; right; auto]. rewrite H3. destruct Hm3 as [Hm3|Hm3]; rewrite Hm3; auto. right; left; auto.
  Qed.

  Lemma row_max_ok (r : rvec) c f : length r = c -> (0 < c)%nat -> (forall i, (i < c)%nat -> nth i r 0 = f i) ->
    exists m, row_max r = Ok m /\ is_max c f m.
  Proof.
    intros Hl Hc Hf. destruct r as [|a l]; [simpl in Hl; lia|]. eexists; split; [reflexivity|].
    destruct (vmax_ge l a) as (H1 & H2 & H3). split.
    - assert (Hin : In (vmax a l) (a :: l)) by (destruct H3 as [->|H3]; [left|right]; auto).
      apply (In_nth _ _ 0) in Hin as (i & Hi & He). exists i. split; [lia|]. rewrite <- Hf by lia. auto.
    - intros i Hi. rewrite <- Hf by auto. destruct i as [|i]; simpl; auto. apply H2, nth_In. simpl in Hl; lia.
  Qed.

  Lemma sequence_map_ok {A B} (g : A -> result B) (l : list A) :
    (forall a, In a l -> exists b, g a = Ok b) -> exists r, sequence (map g l) = Ok r /\ length r = length l /\
      forall i da db, (i < length l)%nat -> g (nth i l da) = Ok (nth i r db).
  Proof.
    induction l as [|a l IH]; intros H; cbn [map sequence].
    - exists []. repeat split; auto. intros i da db Hi; simpl in Hi; lia.
    - destruct (H a) as (b & Hb); [left; auto|]. destruct IH as (r & Hr & Hlr & Hn); [intros; apply H; right; auto|].
      rewrite Hb, Hr. cbn [rbind rmap]. exists (b :: r). split; auto. split; [simpl; lia|].
      intros [|i] da db Hi; simpl; auto. apply Hn. simpl in Hi; lia.
  Qed.

  (** value k of both output functions; the sample with the last index has no increment *)
  Theorem C39_values : forall N c w e, shape N c w -> length e = N -> (0 < c)%nat ->
    exists mx sm, ELBND c w e "max" = Ok mx /\ ELBND c w e "sum" = Ok sm /\ length mx = N /\ length sm = N /\
      forall k, (k < N)%nat ->
        let v i := if (S k <? N)%nat then Rabs ((ent w (S k) i - ent w k i) * nth k e 0) else 0 in
        is_max c v (nth k mx 0) /\ nth k sm 0 = sumn c v.
  Proof.
    intros N c w e Hw He Hc. destruct (elbnd_dw_ok N c w Hw) as (D1 & D2). pose proof D1 as (Hld & _).
    set (B := map2 (fun row ek => map (fun a => Rabs (a * ek)) row) (elbnd_dw c w) e).
    assert (Hbc : bc (fun (row : rvec) ek => map (fun a => nabs (nmul a ek)) row) (elbnd_dw c w) e = Ok B).
    { unfold bc. destruct (Nat.eqb_spec (length (elbnd_dw c w)) (length e)); [reflexivity|lia]. }
    assert (HlB : length B = N) by (unfold B; rewrite map2_len; lia).
    assert (HB : forall k, (k < N)%nat -> length (nth k B []) = c /\ forall i, (i < c)%nat ->
        nth i (nth k B []) 0 = if (S k <? N)%nat then Rabs ((ent w (S k) i - ent w k i) * nth k e 0) else 0).
    { intros k Hk. unfold B. rewrite (map2_nth' _ _ _ _ ([] : rvec) 0) by lia.
      pose proof (shape_row N c _ k D1 Hk) as Hr. split; [rewrite map_length; auto|].
      intros i Hi. rewrite (map_nth_lt _ _ _ 0) by lia. fold (ent (elbnd_dw c w) k i). rewrite D2 by auto.
      destruct (S k <? N)%nat.
      - rewrite !Rabs_mult, Rabs_Rabsolu. reflexivity.
      - rewrite Rmult_0_l, Rabs_R0. reflexivity. }
    unfold ELBND. cbn [String.eqb Ascii.eqb Bool.eqb orb negb]. rewrite Hbc. cbn [rbind].
    destruct (sequence_map_ok row_max B) as (mx & Hmx & Hlmx & Hn).
    { intros r Hr. apply (In_nth _ _ []) in Hr as (k & Hk & <-). destruct (HB k ltac:(lia)) as (H1 & H2).
      destruct (row_max_ok _ c _ H1 Hc H2) as (m & Hm & _). eauto. }
    exists mx, (map Rsum B). split; [exact Hmx|]. split; [reflexivity|]. split; [lia|]. split; [rewrite map_length; auto|].
    intros k Hk. match goal with |- is_max c ?f _ /\ _ => set (v := f) end. destruct (HB k Hk) as (H1 & H2). split.
    - destruct (row_max_ok _ c v H1 Hc H2) as (m & Hm & Hmax). rewrite (Hn k [] 0) in Hm by lia. injection Hm as <-. auto.
    - rewrite (map_nth_lt _ _ _ ([] : rvec)) by lia. rewrite Rsum_sumn, H1. apply sumn_ext; auto.
  Qed.

  Lemma is_max_unique c f g m m' : is_max c f m -> is_max c g m' -> (forall i, (i < c)%nat -> f i = g i) -> m = m'.
  Proof.
    intros ((i & Hi & ->) & H1) ((j & Hj & ->) & H2) He.
    apply Rle_antisym; [rewrite (He i) by auto; apply H2; auto|rewrite <- (He j) by auto; apply H1; auto].
  Qed.
  Lemma sumn_const c (a : R) : sumn c (fun _ => a) = INR c * a.
  Proof. induction c as [|c IH]; [simpl; ring|]. cbn [sumn]. rewrite IH, S_INR. ring. Qed.
  Lemma sumn_ge_term c f i : (forall j, (j < c)%nat -> 0 <= f j) -> (i < c)%nat -> f i <= sumn c f.
  Proof.
    induction c as [|c IH]; intros Hf Hi; [lia|]. cbn [sumn].
    assert (0 <= f c) by (apply Hf; lia). assert (0 <= sumn c f) by (apply sumn_nonneg; intros; apply Hf; lia).
    destruct (Nat.eq_dec i c) as [->|]; [lra|]. assert (f i <= sumn c f) by (apply IH; [intros; apply Hf|]; lia). lra.
  Qed.

  Theorem C39_bounds : forall N c w e mx sm, shape N c w -> length e = N -> (0 < c)%nat ->
    ELBND c w e "max" = Ok mx -> ELBND c w e "sum" = Ok sm ->
    forall k, (k < N)%nat -> 0 <= nth k mx 0 <= nth k sm 0 /\ nth k sm 0 <= INR c * nth k mx 0.
  Proof.
    intros N c w e mx sm Hw He Hc H1 H2 k Hk.
    destruct (C39_values N c w e Hw He Hc) as (mx' & sm' & E1 & E2 & _ & _ & H).
    rewrite H1 in E1; injection E1 as <-. rewrite H2 in E2; injection E2 as <-.
    destruct (H k Hk) as (((i & Hi & Hm) & Hmax) & ->). set (v := fun i => _) in *.
    assert (Hv : forall j, (j < c)%nat -> 0 <= v j) by (intros j Hj; unfold v; destruct (_ <? _)%nat; [apply Rabs_pos|lra]).
    split; [split|].
    - rewrite Hm; exact (Hv i Hi).
    - rewrite Hm; exact (sumn_ge_term c v i Hv Hi).
    - rewrite <- sumn_const. apply sumn_le; auto.
  Qed.

  (** the last sample is never flagged, whatever happened there *)
  Theorem C39_last_is_zero : forall N c w e mx sm, shape (S N) c w -> length e = S N -> (0 < c)%nat ->
    ELBND c w e "max" = Ok mx -> ELBND c w e "sum" = Ok sm -> nth N mx 0 = 0 /\ nth N sm 0 = 0.
  Proof.
    intros N c w e mx sm Hw He Hc H1 H2.
    destruct (C39_values (S N) c w e Hw He Hc) as (mx' & sm' & E1 & E2 & _ & _ & H).
    rewrite H1 in E1; injection E1 as <-. rewrite H2 in E2; injection E2 as <-.
    destruct (H N ltac:(lia)) as (((i & Hi & Hm) & _) & Hs). rewrite Nat.ltb_irrefl in *. split; auto.
    rewrite Hs. apply sumn_0.
  Qed.

  Theorem C39_unknown_function : forall c w e f, f <> "max"%string -> f <> "sum"%string -> ELBND c w e f = Err ValueError.
  Proof.
    intros c w e f H1 H2. unfold ELBND.
    destruct (String.eqb_spec f "max"); [contradiction|]. destruct (String.eqb_spec f "sum"); [contradiction|]. reflexivity.
  Qed.

  (** fed with the outputs of an LMS run *)
  Theorem C39_LMS : forall n (o o' : obj) d x y e w mx, reachable n o -> o_ext o = XLMS -> rows_of n x -> (0 < n)%nat ->
    run d x o = (o', Ok (y, e, w)) -> ELBND n w e "max" = Ok mx ->
    forall k, (S k < length x)%nat -> is_max n (fun i => Rabs (o_mu o) * (nth k e 0 * nth k e 0) * Rabs (ent x k i)) (nth k mx 0).
  Proof.
    intros n o o' d x y e w mx Hr Ex Hx Hn E Hm k Hk. apply reachable_wf in Hr.
    destruct (run_lengths solve n o o' d x y e w Hr Hx E) as (_ & _ & _ & Hle & Hlw & _).
    assert (Ht : forall e v, textbook (o_ext o) (o_mu o) e v <> None) by (intros; rewrite Ex; discriminate).
    assert (Hrow : forall j, (j < length x)%nat -> wrow w (o_w o') j = nth j w []) by (intros; unfold wrow; rewrite app_nth1 by lia; auto).
    assert (Hw : shape (length x) n w).
    { apply shape_intro; auto. intros i Hi.
      destruct (run_textbook solve n o o' d x y e w i Hr Hx Ht E Hi) as (dw & _ & _ & _ & _ & Hlr & _).
      rewrite Hrow in Hlr by auto. auto. }
    destruct (C39_values (length x) n w e Hw Hle Hn) as (mx' & sm' & E1 & _ & _ & _ & H).
    rewrite Hm in E1; injection E1 as <-. destruct (H k ltac:(lia)) as (Hmax & _).
    destruct (run_textbook solve n o o' d x y e w k Hr Hx Ht E ltac:(lia)) as (dw & Hdw & Hs & _ & _ & Hl1 & Hl2).
    rewrite Ex in Hdw; injection Hdw as <-. rewrite !Hrow in Hs by lia. rewrite Hrow in Hl1 by lia.
    destruct (Nat.ltb_spec (S k) (length x)); [|lia].
    assert (Heq : forall i, Rabs ((ent w (S k) i - ent w k i) * nth k e 0) = Rabs (o_mu o) * (nth k e 0 * nth k e 0) * Rabs (ent x k i)).
    { intros i. unfold ent. rewrite Hs. rewrite nth_vadd by (rewrite vsc_length; lia). rewrite nth_vsc.
      match goal with |- Rabs ?a = _ => replace a with (o_mu o * (nth k e 0 * nth k e 0) * nth i (nth k x []) 0) by ring end.
      rewrite !Rabs_mult. f_equal. f_equal. rewrite <- Rabs_mult. apply Rabs_right. apply Rle_ge, Rle_0_sqr. }
    destruct Hmax as ((i & Hi & He1) & He2). split.
    - exists i; split; auto. rewrite He1. apply Heq.
    - intros j Hj. rewrite <- Heq. auto.
  Qed.

  (** ** C40, C41 learning entropy *)
  (** the series the windows are taken from: raw weights before index [order], then absolute differences *)
  Definition le_series (order : nat) (w : rmat) (i k : nat) : R :=
    if (k <? order)%nat then ent w k i else Rabs (bdiff order (fun t => ent w t i) k).

  Lemma firstn_ent (A : rmat) o k i : (k < o)%nat -> ent (firstn o A) k i = ent A k i.
  Proof.
    intros Hk. unfold ent. f_equal. revert o k Hk. induction A as [|r A IH]; intros [|o] [|k] Hk; simpl; auto; try lia.
    apply IH; lia.
  Qed.
  Lemma le_dw_ok N c w o : shape N c w -> shape N c (le_dw o w) /\
    forall k i, (k < N)%nat -> (i < c)%nat -> ent (le_dw o w) k i = le_series o w i k.
  Proof.
    intros Hw. destruct (diffn_ok N c w o Hw) as (D1 & D2). destruct (mabs_ok _ c _ D1) as (M1 & M2).
    pose proof Hw as (Hl & HF).
    assert (HFn : shape (Nat.min o N) c (firstn o w)).
    { split; [rewrite firstn_length; lia|]. rewrite <- (firstn_skipn o w) in HF. apply Forall_app in HF. apply HF. }
    destruct (app_ok _ _ c _ _ HFn M1) as (A1 & A2). unfold le_dw. split.
    - replace N with (Nat.min o N + (N - o))%nat by lia. exact A1.
    - intros k i Hk Hi. rewrite A2. unfold le_series.
      destruct (Nat.ltb_spec k (Nat.min o N)); destruct (Nat.ltb_spec k o); try lia.
      + apply firstn_ent; auto.
      + rewrite M2, D2 by lia. f_equal. f_equal. lia.
  Qed.

  Lemma slice_ok N c (A : rmat) m k : shape N c A -> (m <= k <= N)%nat ->
    shape m c (slice A (k - m) k) /\ forall t i, (t < m)%nat -> ent (slice A (k - m) k) t i = ent A (k - m + t) i.
  Proof.
    intros (Hl & HF) Hk. unfold slice. replace (k - (k - m))%nat with m by lia. split.
    - split; [rewrite firstn_length, skipn_length; lia|].
      rewrite <- (firstn_skipn (k - m) A) in HF. apply Forall_app in HF as (_ & HF).
      rewrite <- (firstn_skipn m (skipn (k - m) A)) in HF. apply Forall_app in HF. apply HF.
    - intros t i Ht. rewrite firstn_ent by auto. unfold ent. f_equal.
      clear. revert A. generalize (k - m)%nat. induction n as [|n IH]; intros A; simpl; auto.
      destruct A; simpl; auto. destruct t; auto.
  Qed.

  Lemma mean_sum (v : rvec) m f : length v = m -> (forall t, (t < m)%nat -> nth t v 0 = f t) -> mean v = sumn m f / INR m.
  Proof.
    intros Hl H. unfold mean, nofnat; simpl. rewrite Hl, Rsum_sumn, Hl, INR_IZR_INZ. f_equal. apply sumn_ext; auto.
  Qed.

  Lemma window_stats N c w o m k i : shape N c w -> (m <= k <= N)%nat -> (i < c)%nat ->
    nth i (mean0 c (le_window m (le_dw o w) k)) 0 = wmean (le_series o w i) m k /\
    nth i (std0 c (le_window m (le_dw o w) k)) 0 = wstd (le_series o w i) m k.
  Proof.
    intros Hw Hk Hi. destruct (le_dw_ok N c w o Hw) as (D1 & D2).
    destruct (slice_ok N c _ m k D1 Hk) as (S1 & S2). unfold le_window, mean0, std0.
    set (W := slice (le_dw o w) (k - m) k) in *.
    assert (Hc : length (column i W) = m) by (rewrite (column_len solve); apply S1).
    assert (Hcn : forall t, (t < m)%nat -> nth t (column i W) 0 = le_series o w i (k - m + t)%nat).
    { intros t Ht. rewrite (column_nth solve) by (destruct S1; lia). rewrite S2 by auto. apply D2; auto. lia. }
    assert (Hm : mean (column i W) = wmean (le_series o w i) m k) by (apply mean_sum; auto).
    rewrite !(map_nth_lt _ _ _ ([] : rvec)) by (rewrite (transpose_len solve); auto).
    rewrite (transpose_nth solve) by auto. split; auto.
    unfold std. rewrite Hm. unfold wstd. simpl (nsqrt _). f_equal.
    apply mean_sum; [rewrite map_length; auto|]. intros t Ht. rewrite (map_nth_lt _ _ _ 0) by lia. rewrite Hcn by auto.
    simpl (npown _ _). rewrite <- (pow2_abs (_ - _)). reflexivity.
  Qed.

  Lemma map2_nth_len {X Y Z : Type} (f : X -> Y -> Z) u v a b c i : length u = length v -> (i < length u)%nat ->
    nth i (map2 f u v) c = f (nth i u a) (nth i v b).
  Proof. intros; apply map2_nth'; lia. Qed.

  Lemma eps_val : Q2R (1 # 10000000000) = / 10 ^ 10.
  Proof. unfold Q2R; simpl. field. Qed.

  Definition falsy (a : alpha_arg R) : Prop :=
    match a with AlphaFalse | AlphaList [] => True | _ => False end.

  (** the direct approach: value for sample k and weight i *)
  Theorem C40_direct : forall N c w m order alpha, shape N c w -> (0 < m)%nat -> falsy alpha ->
    exists le, learning_entropy c w m (Z.of_nat order) alpha = Ok (LeMatrix le) /\ shape N c le /\
      forall k i, (k < N)%nat -> (i < c)%nat ->
        ent le k i = if (k <? m)%nat then 0 else
          (le_series order w i k - wmean (le_series order w i) m k) / (wstd (le_series order w i) m k + / 10 ^ 10).
  Proof.
    intros N c w m order alpha Hw Hm0 Ha. unfold learning_entropy.
    destruct (Z.ltb_spec (Z.of_nat order) 0); [lia|]. rewrite Nat2Z.id.
    exists (le_direct c m (le_dw order w)). split.
    { destruct alpha as [|a|[|? ?]|l]; simpl in Ha; try contradiction; reflexivity. }
    destruct (le_dw_ok N c w order Hw) as (D1 & D2). pose proof D1 as (Dl & _).
    assert (Hrow : forall k, (k < N)%nat -> length (nth k (le_direct c m (le_dw order w)) []) = c /\
       forall i, (i < c)%nat -> nth i (nth k (le_direct c m (le_dw order w)) []) 0 =
          if (k <? m)%nat then 0 else
          (le_series order w i k - wmean (le_series order w i) m k) / (wstd (le_series order w i) m k + / 10 ^ 10)).
    { intros k Hk. unfold le_direct. rewrite Dl. rewrite (map_nth_lt _ _ _ 0%nat) by (rewrite seq_length; auto).
      rewrite seq_nth by auto. cbn [plus]. unfold le_awd, le_swd. destruct (Nat.ltb_spec k m) as [Hlt|Hge].
      - split; [apply repeat_length|]. intros i Hi. unfold zeros. change (@n0 R _) with 0.
        clear - Hi. revert i Hi. induction c as [|c IH]; intros [|i] Hi; simpl; auto; try lia. apply IH; lia.
      - pose proof (shape_row N c _ k D1 Hk) as Hr.
        assert (L1 : length (mean0 c (le_window m (le_dw order w) k)) = c) by (unfold mean0; rewrite map_length, (transpose_len solve); auto).
        assert (L2 : length (std0 c (le_window m (le_dw order w) k)) = c) by (unfold std0; rewrite map_length, (transpose_len solve); auto).
        assert (L3 : length (map2 nsub (nth k (le_dw order w) []) (mean0 c (le_window m (le_dw order w) k))) = c)
          by (rewrite map2_len; lia).
        split; [rewrite map2_len; lia|]. intros i Hi.
        rewrite (map2_nth_len _ _ _ 0 0) by lia. rewrite (map2_nth_len _ _ _ 0 0) by lia.
        destruct (window_stats N c w order m k i Hw ltac:(lia) Hi) as (E1 & E2). rewrite E1, E2.
        fold (ent (le_dw order w) k i). rewrite D2 by auto. simpl (nofQ _). rewrite eps_val. reflexivity. }
    split; [apply shape_intro; [unfold le_direct; rewrite map_length, seq_length; auto|intros; apply Hrow; auto]|].
    intros k i Hk Hi. apply Hrow; auto.
  Qed.

  (** from m + order on, only absolute differences are involved *)
  Lemma series_pure order w i k : (order <= k)%nat -> le_series order w i k = Rabs (bdiff order (fun t => ent w t i) k).
  Proof. intros H. unfold le_series. destruct (Nat.ltb_spec k order); [lia|reflexivity]. Qed.
  Lemma wmean_ext f g m k : (forall t, (t < m)%nat -> f (k - m + t)%nat = g (k - m + t)%nat) -> wmean f m k = wmean g m k.
  Proof. intros H. unfold wmean. f_equal. apply sumn_ext; auto. Qed.
  Lemma wstd_ext f g m k : (forall t, (t < m)%nat -> f (k - m + t)%nat = g (k - m + t)%nat) -> wstd f m k = wstd g m k.
  Proof. intros H. unfold wstd. rewrite (wmean_ext f g) by auto. f_equal. f_equal. apply sumn_ext; intros t Ht. rewrite H; auto. Qed.

  Theorem C40_differences_only : forall N c w m order alpha le, shape N c w -> (0 < m)%nat -> falsy alpha ->
    learning_entropy c w m (Z.of_nat order) alpha = Ok (LeMatrix le) ->
    forall k i, (m + order <= k < N)%nat -> (i < c)%nat ->
      let D := fun t => Rabs (bdiff order (fun s => ent w s i) t) in
      ent le k i = (D k - wmean D m k) / (wstd D m k + / 10 ^ 10).
  Proof.
    intros N c w m order alpha le Hw Hm0 Ha E k i Hk Hi D.
    destruct (C40_direct N c w m order alpha Hw Hm0 Ha) as (le' & E' & _ & H). rewrite E in E'; injection E' as <-.
    rewrite H by (auto; lia). destruct (Nat.ltb_spec k m); [lia|].
    rewrite (wmean_ext _ D), (wstd_ext _ D) by (intros; apply series_pure; lia). rewrite series_pure by lia. reflexivity.
  Qed.

  (** two weight histories that differ by a constant vector *)
  Definition shifted (N c : nat) (w w' : rmat) (b : nat -> R) : Prop :=
    forall k i, (k < N)%nat -> (i < c)%nat -> ent w' k i = ent w k i + b i.

  Lemma bdiff_ext o f g k : (forall t, (t <= k)%nat -> f t = g t) -> bdiff o f k = bdiff o g k.
  Proof.
    revert k. induction o as [|o IH]; intros k H; cbn [bdiff]; [apply H; lia|].
    rewrite (IH k), (IH (k - 1)%nat) by (intros; apply H; lia). reflexivity.
  Qed.
  Lemma bdiff_shift o f b k : (1 <= o)%nat -> (o <= k)%nat -> bdiff o (fun t => f t + b) k = bdiff o f k.
  Proof.
    revert k. induction o as [|o IH]; intros k H1 H2; [lia|]. cbn [bdiff].
    destruct o as [|o]; [cbn [bdiff]; ring|]. rewrite !IH by lia. reflexivity.
  Qed.
  Lemma series_shift N c w w' b order k i : shifted N c w w' b -> (1 <= order <= k)%nat -> (k < N)%nat -> (i < c)%nat ->
    le_series order w' i k = le_series order w i k.
  Proof.
    intros Hs Ho Hk Hi. rewrite !series_pure by lia. f_equal.
    rewrite (bdiff_ext order (fun t => ent w' t i) (fun t => ent w t i + b i)) by (intros; apply Hs; lia).
    apply bdiff_shift; lia.
  Qed.

  Theorem C40_shift_invariance : forall N c w w' b m order alpha le le', shape N c w -> shape N c w' ->
    shifted N c w w' b -> (1 <= order)%nat -> (0 < m)%nat -> falsy alpha ->
    learning_entropy c w m (Z.of_nat order) alpha = Ok (LeMatrix le) ->
    learning_entropy c w' m (Z.of_nat order) alpha = Ok (LeMatrix le') ->
    forall k i, (m + order <= k < N)%nat -> (i < c)%nat -> ent le' k i = ent le k i.
  Proof.
    intros N c w w' b m order alpha le le' Hw Hw' Hs Ho Hm0 Ha E E' k i Hk Hi.
    destruct (C40_direct N c w m order alpha Hw Hm0 Ha) as (l1 & E1 & _ & H1). rewrite E in E1; injection E1 as <-.
    destruct (C40_direct N c w' m order alpha Hw' Hm0 Ha) as (l2 & E2 & _ & H2). rewrite E' in E2; injection E2 as <-.
    rewrite H1, H2 by (auto; lia). destruct (Nat.ltb_spec k m); [lia|].
    rewrite (wmean_ext (le_series order w' i) (le_series order w i)), (wstd_ext (le_series order w' i) (le_series order w i))
      by (intros; eapply series_shift; eauto; lia).
    rewrite (series_shift N c w w' b) by (auto; lia). reflexivity.
  Qed.

  (** before that, raw weights enter the windows: the value for sample m changes with a constant shift *)
  Theorem C40_early_shift_refuted : exists N c w w' b m order le le' k i,
    shape N c w /\ shape N c w' /\ shifted N c w w' b /\ (1 <= order)%nat /\ (0 < m)%nat /\ (m <= k < m + order)%nat /\ (k < N)%nat /\ (i < c)%nat /\
    learning_entropy c w m (Z.of_nat order) AlphaFalse = Ok (LeMatrix le) /\
    learning_entropy c w' m (Z.of_nat order) AlphaFalse = Ok (LeMatrix le') /\
    ent le' k i <> ent le k i.
  Proof.
    set (w := [[0]; [1]] : rmat). set (w' := [[5]; [6]] : rmat).
    assert (Hw : shape 2 1 w) by (split; [reflexivity|repeat constructor]).
    assert (Hw' : shape 2 1 w') by (split; [reflexivity|repeat constructor]).
    destruct (C40_direct 2 1 w 1 1 AlphaFalse Hw Nat.lt_0_1 I) as (le & E & _ & H).
    destruct (C40_direct 2 1 w' 1 1 AlphaFalse Hw' Nat.lt_0_1 I) as (le' & E' & _ & H').
    exists 2%nat, 1%nat, w, w', (fun _ => 5), 1%nat, 1%nat, le, le', 1%nat, 0%nat.
    split; [exact Hw|]. split; [exact Hw'|]. split.
    { intros k i Hk Hi. destruct i; [|lia]. destruct k as [|[|k]]; [| |lia]; unfold ent, w, w'; simpl; ring. }
    do 5 (split; [lia|]). split; [exact E|]. split; [exact E'|].
    rewrite H, H' by lia. cbn [Nat.ltb Nat.leb].
    assert (M : forall f, wmean f 1 1 = f 0%nat) by (intros f; unfold wmean; simpl; field).
    assert (Sd : forall f, wstd f 1 1 = 0).
    { intros f. unfold wstd. rewrite M. cbn [sumn]. replace ((0 + (f (1 - 1 + 0)%nat - f 0%nat) ^ 2) / INR 1) with 0.
      - apply sqrt_0.
      - simpl. replace (f 0%nat - f 0%nat) with 0 by ring. field. }
    rewrite !M, !Sd. unfold le_series, ent, w, w'; cbn [Nat.ltb Nat.leb bdiff nth].
    replace (1 - 1)%nat with 0%nat by lia. cbn [nth].
    replace (6 - 5) with 1 by ring. replace (1 - 0) with 1 by ring. rewrite Rabs_R1.
    intros Hc. apply (Rmult_eq_compat_r (0 + / 10 ^ 10)) in Hc.
    assert (Hne : 0 + / 10 ^ 10 <> 0) by (pose proof (Rinv_0_lt_compat (10 ^ 10)); lra).
    unfold Rdiv in Hc. rewrite !Rmult_assoc, !Rinv_l in Hc by auto. lra.
  Qed.

  (** ** C41 *)
  Definition above (a b : R) : R := if Rlt_dec a b then 1 else 0.
  Lemma count_true_sum (u v : rvec) c alpha : length u = c -> length v = c ->
    INR (count_true (map2 (fun a d => Rltb (a * alpha) d) u v)) = sumn c (fun i => above (nth i u 0 * alpha) (nth i v 0)).
  Proof.
    revert u v; induction c as [|c IH]; intros [|a u] [|b v] Hu Hv; simpl in Hu, Hv; try discriminate; auto.
    rewrite sumn_S_l. cbn [map2 count_true nth]. rewrite plus_INR, (IH u v) by lia. f_equal.
    unfold above, Rltb. destruct (Rlt_dec _ _); reflexivity.
  Qed.

  Lemma INR_nofnat k : IZR (Z.of_nat k) = INR k.
  Proof. symmetry; apply INR_IZR_INZ. Qed.

  (** the multiscale value: the fraction of (weight, sensitivity) pairs whose increment exceeds
      sensitivity times the average of the window *)
  Definition le_fraction (c m order : nat) (w : rmat) (alphas : rvec) (k : nat) : R :=
    Rsum (map (fun alpha => sumn c (fun i => above (wmean (le_series order w i) m k * alpha) (le_series order w i k))) alphas)
    / (INR c * INR (length alphas)).

  Theorem C41_fraction : forall N c w m order alphas, shape N c w -> (0 < c)%nat -> (0 < m)%nat -> alphas <> [] ->
    exists le, learning_entropy c w m (Z.of_nat order) (AlphaList alphas) = Ok (LeSeries le) /\ length le = N /\
      forall k, (k < N)%nat -> nth k le 0 = if (k <? m)%nat then 0 else le_fraction c m order w alphas k.
  Proof.
    intros N c w m order alphas Hw Hc Hm Ha. unfold learning_entropy.
    destruct (Z.ltb_spec (Z.of_nat order) 0); [lia|]. rewrite Nat2Z.id.
    exists (le_multiscale c m (le_dw order w) alphas). split.
    { destruct alphas; [contradiction|]. reflexivity. }
    destruct (le_dw_ok N c w order Hw) as (D1 & D2). pose proof D1 as (Dl & _).
    split; [unfold le_multiscale; rewrite map_length, seq_length; auto|].
    intros k Hk. unfold le_multiscale. rewrite Dl. rewrite (map_nth_lt _ _ _ 0%nat) by (rewrite seq_length; auto).
    rewrite seq_nth by auto. cbn [plus]. unfold le_awd. destruct (Nat.ltb_spec k m) as [Hlt|Hge]; [reflexivity|].
    unfold le_fraction. cbv zeta. unfold nofnat. simpl (ndiv _ _). f_equal.
    2:{ rewrite INR_nofnat. apply mult_INR. }
    pose proof (shape_row N c _ k D1 Hk) as Hr.
    assert (L1 : length (mean0 c (le_window m (le_dw order w) k)) = c) by (unfold mean0; rewrite map_length, (transpose_len solve); auto).
    assert (Hacc : forall l s, fold_left (fun s alpha => nadd s (nofZ (Z.of_nat (count_true (map2 (fun a d => nltb (nmul a alpha) d)
        (mean0 c (le_window m (le_dw order w) k)) (nth k (le_dw order w) [])))))) l s
        = s + Rsum (map (fun alpha => sumn c (fun i => above (wmean (le_series order w i) m k * alpha) (le_series order w i k))) l)).
    { induction l as [|a l IH]; intros s; cbn [fold_left map Rsum]; [ring|]. rewrite IH. simpl (nadd _ _).
      rewrite INR_nofnat. change (fun a0 d : R => nltb (nmul a0 a) d) with (fun a0 d : R => Rltb (a0 * a) d).
      rewrite (count_true_sum _ _ c) by auto.
      rewrite (sumn_ext c _ (fun i => above (wmean (le_series order w i) m k * a) (le_series order w i k))); [ring|].
      intros i Hi. destruct (window_stats N c w order m k i Hw ltac:(lia) Hi) as (-> & _).
      fold (ent (le_dw order w) k i). rewrite D2 by auto. reflexivity. }
    rewrite Hacc. change (@n0 R _) with 0. ring.
  Qed.

  Lemma Rsum_le_map {A} (f g : A -> R) l : (forall a, In a l -> f a <= g a) -> Rsum (map f l) <= Rsum (map g l).
  Proof. induction l as [|a l IH]; intros H; cbn [map Rsum]; [lra|]. pose proof (H a (or_introl eq_refl)). assert (Rsum (map f l) <= Rsum (map g l)) by (apply IH; intros; apply H; right; auto). lra. Qed.
  Lemma Rsum_const {A} (l : list A) r : Rsum (map (fun _ => r) l) = INR (length l) * r.
  Proof. induction l as [|a l IH]; [simpl; ring|]. cbn [map Rsum length]. rewrite IH, S_INR. ring. Qed.
  Lemma above_01 a b : 0 <= above a b <= 1.
  Proof. unfold above; destruct (Rlt_dec a b); lra. Qed.

  Theorem C41_range : forall N c w m order alphas le, shape N c w -> (0 < c)%nat -> (0 < m)%nat -> alphas <> [] ->
    learning_entropy c w m (Z.of_nat order) (AlphaList alphas) = Ok (LeSeries le) ->
    forall k, (k < N)%nat -> 0 <= nth k le 0 <= 1.
  Proof.
    intros N c w m order alphas le Hw Hc Hm Ha E k Hk.
    destruct (C41_fraction N c w m order alphas Hw Hc Hm Ha) as (le' & E' & _ & H). rewrite E in E'; injection E' as <-.
    rewrite H by auto. destruct (k <? m)%nat; [lra|]. unfold le_fraction.
    set (g := fun alpha => sumn c _).
    assert (Hcp : 0 < INR c) by (apply lt_0_INR; auto).
    assert (Hap : 0 < INR (length alphas)) by (apply lt_0_INR; destruct alphas; [contradiction|simpl; lia]).
    assert (Hg : forall a, 0 <= g a <= INR c).
    { intros a; unfold g; split; [apply sumn_nonneg; intros; apply above_01|].
      rewrite <- (Rmult_1_r (INR c)), <- sumn_const. apply sumn_le; intros; apply above_01. }
    assert (H0 : 0 <= Rsum (map g alphas)).
    { apply Rle_trans with (Rsum (map (fun _ : R => 0) alphas)); [rewrite Rsum_const; lra|]. apply Rsum_le_map; intros; apply Hg. }
    assert (H1 : Rsum (map g alphas) <= INR c * INR (length alphas)).
    { apply Rle_trans with (Rsum (map (fun _ : R => INR c) alphas)); [apply Rsum_le_map; intros; apply Hg|]. rewrite Rsum_const; lra. }
    assert (Hp : 0 < INR c * INR (length alphas)) by (apply Rmult_lt_0_compat; auto).
    split.
    - apply Rmult_le_pos; [auto|]. left; apply Rinv_0_lt_compat; auto.
    - apply (Rmult_le_reg_r (INR c * INR (length alphas))); auto. unfold Rdiv. rewrite Rmult_assoc, Rinv_l by lra. lra.
  Qed.

  Theorem C41_alpha_order : forall N c w m order alphas alphas' le le', shape N c w -> (0 < c)%nat -> (0 < m)%nat -> alphas <> [] ->
    Permutation alphas alphas' ->
    learning_entropy c w m (Z.of_nat order) (AlphaList alphas) = Ok (LeSeries le) ->
    learning_entropy c w m (Z.of_nat order) (AlphaList alphas') = Ok (LeSeries le') -> le = le'.
  Proof.
    intros N c w m order alphas alphas' le le' Hw Hc Hm Ha HP E E'.
    assert (Ha' : alphas' <> []) by (intros ->; apply Permutation_sym, Permutation_nil in HP; contradiction).
    destruct (C41_fraction N c w m order alphas Hw Hc Hm Ha) as (l1 & E1 & L1 & H1). rewrite E in E1; injection E1 as <-.
    destruct (C41_fraction N c w m order alphas' Hw Hc Hm Ha') as (l2 & E2 & L2 & H2). rewrite E' in E2; injection E2 as <-.
    apply nth_ext0; [congruence|]. intros k Hk. rewrite H1, H2 by lia. destruct (k <? m)%nat; auto.
    unfold le_fraction. rewrite (Permutation_length HP). f_equal.
    clear -HP. induction HP; cbn [map Rsum]; lra.
  Qed.

  (** larger sensitivities never give larger values *)
  Theorem C41_alpha_monotone : forall N c w m order alphas alphas' le le', shape N c w -> (0 < c)%nat -> (0 < m)%nat -> alphas <> [] ->
    Forall2 Rle alphas alphas' ->
    learning_entropy c w m (Z.of_nat order) (AlphaList alphas) = Ok (LeSeries le) ->
    learning_entropy c w m (Z.of_nat order) (AlphaList alphas') = Ok (LeSeries le') ->
    forall k, (m + order <= k < N)%nat -> nth k le' 0 <= nth k le 0.
  Proof.
    intros N c w m order alphas alphas' le le' Hw Hc Hm Ha HF E E' k Hk.
    assert (Ha' : alphas' <> []) by (intros ->; inversion HF; subst; contradiction).
    assert (Hlen : length alphas = length alphas') by (clear -HF; induction HF; simpl; congruence).
    destruct (C41_fraction N c w m order alphas Hw Hc Hm Ha) as (l1 & E1 & L1 & H1). rewrite E in E1; injection E1 as <-.
    destruct (C41_fraction N c w m order alphas' Hw Hc Hm Ha') as (l2 & E2 & L2 & H2). rewrite E' in E2; injection E2 as <-.
    rewrite H1, H2 by lia. destruct (Nat.ltb_spec k m); [lia|]. unfold le_fraction. rewrite <- Hlen.
    assert (Hp : 0 < INR c * INR (length alphas)).
    { apply Rmult_lt_0_compat; apply lt_0_INR; auto. destruct alphas; [contradiction|simpl; lia]. }
    apply Rmult_le_compat_r; [left; apply Rinv_0_lt_compat; auto|].
    assert (Hpos : forall i, 0 <= wmean (le_series order w i) m k).
    { intros i. unfold wmean. apply Rmult_le_pos; [|left; apply Rinv_0_lt_compat, lt_0_INR; auto].
      apply sumn_nonneg. intros t Ht. rewrite series_pure by lia. apply Rabs_pos. }
    clear -HF Hpos. induction HF as [|a b l l' Hab HF IH]; cbn [map Rsum]; [lra|].
    apply Rplus_le_compat; auto. apply sumn_le. intros i Hi. unfold above.
    specialize (Hpos i).
    assert (wmean (le_series order w i) m k * a <= wmean (le_series order w i) m k * b) by (apply Rmult_le_compat_l; auto).
    destruct (Rlt_dec (wmean _ m k * b) _); destruct (Rlt_dec (wmean _ m k * a) _); lra.
  Qed.

  Theorem C41_shift_invariance : forall N c w w' b m order alphas le le', shape N c w -> shape N c w' ->
    shifted N c w w' b -> (1 <= order)%nat -> (0 < c)%nat -> (0 < m)%nat -> alphas <> [] ->
    learning_entropy c w m (Z.of_nat order) (AlphaList alphas) = Ok (LeSeries le) ->
    learning_entropy c w' m (Z.of_nat order) (AlphaList alphas) = Ok (LeSeries le') ->
    forall k, (m + order <= k < N)%nat -> nth k le' 0 = nth k le 0.
  Proof.
    intros N c w w' b m order alphas le le' Hw Hw' Hs Ho Hc Hm Ha E E' k Hk.
    destruct (C41_fraction N c w m order alphas Hw Hc Hm Ha) as (l1 & E1 & _ & H1). rewrite E in E1; injection E1 as <-.
    destruct (C41_fraction N c w' m order alphas Hw' Hc Hm Ha) as (l2 & E2 & _ & H2). rewrite E' in E2; injection E2 as <-.
    rewrite H1, H2 by lia. destruct (Nat.ltb_spec k m); [lia|]. unfold le_fraction. f_equal. f_equal. apply map_ext; intros a.
    apply sumn_ext; intros i Hi.
    rewrite (wmean_ext (le_series order w' i) (le_series order w i)) by (intros; eapply series_shift; eauto; lia).
    rewrite (series_shift N c w w' b) by (auto; lia). reflexivity.
  Qed.

  (** the documented argument type `1d array` with several sensitivities is rejected, an empty list
      silently selects the direct approach; a negative order is rejected *)
  Theorem C41_array_rejected : forall c w m order a b l, (0 <= order)%Z ->
    learning_entropy c w m order (AlphaArray (a :: b :: l)) = Err ValueError.
  Proof. intros. unfold learning_entropy. destruct (Z.ltb_spec order 0); reflexivity. Qed.
  Theorem C41_scalar_rejected : forall c w m order a, (0 <= order)%Z -> a <> 0 ->
    learning_entropy c w m order (AlphaScalar a) = Err TypeError.
  Proof.
    intros c w m order a Ho Ha. unfold learning_entropy. destruct (Z.ltb_spec order 0); [lia|]. cbn [not_alpha].
    simpl (neqb _ _). unfold Reqb. change (@n0 R _) with 0. destruct (Req_EM_T a 0); [contradiction|reflexivity].
  Qed.
  Theorem C40_C41_negative_order : forall c w m order alpha, (order < 0)%Z -> learning_entropy c w m order alpha = Err ValueError.
  Proof. intros. unfold learning_entropy. destruct (Z.ltb_spec order 0); [reflexivity|lia]. Qed.
End Det.

(** non-vacuity *)
Definition det_w : rmat := [[0; 1]; [2; 1]; [2; 4]; [3; 3]].
Example C39_hypotheses : shape 4 2 det_w /\ length [1; -1; 2; 1] = 4%nat /\ (0 < 2)%nat.
Proof. split; [split; [reflexivity|repeat constructor]|split; [reflexivity|lia]]. Qed.
Example C40_hypotheses : shape 4 2 det_w /\ shape 4 2 (map (fun r => [nth 0 r 0 + 7; nth 1 r 0]) det_w) /\
  shifted 4 2 det_w (map (fun r => [nth 0 r 0 + 7; nth 1 r 0]) det_w) (fun i => nth i [7; 0] 0) /\ falsy AlphaFalse /\ (2 + 1 <= 3 < 4)%nat.
Proof.
  split; [split; [reflexivity|repeat constructor]|]. split; [split; [reflexivity|repeat constructor]|].
  split; [|split; [unfold falsy; auto|lia]].
  intros k i Hk Hi. unfold ent, det_w.
  destruct k as [|[|[|[|k]]]]; try lia; destruct i as [|[|i]]; try lia; simpl; ring.
Qed.
Example C41_hypotheses : shape 4 2 det_w /\ [8; 1] <> [] /\ Permutation [8; 1] [1; 8] /\ Forall2 Rle [8; 1] [9; 1] /\ (2 + 1 <= 3 < 4)%nat.
Proof.
  split; [split; [reflexivity|repeat constructor]|]. split; [discriminate|]. split; [apply perm_swap|]. split; [|lia].
  repeat constructor; lra.
Qed.
