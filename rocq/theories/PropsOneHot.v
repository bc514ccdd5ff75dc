(** C125: one-hot inputs (exact real arithmetic): the filters keep one running average per category. *)
From Coq Require Import Reals Lra Lia Psatz.
From Verif Require Import Py Num Numpy Filters Registry Spec StructProofs RunProofs Reach RVec RFilter PropsStability Steps PropsAlgebra RMat PropsRLS PropsRLSRate PropsTracking PropsRLSTrack PropsRLSCost PropsConverge PropsNotch.
Open Scope R_scope.

(** ** Specification *)
(** the row of category j among n *)
Definition onehot (n j : nat) : rvec := map (fun i => if Nat.eqb j i then 1 else 0) (seq 0 n).
(** the items of l that belong to category j; cs lists the categories *)
Definition pick {A} (j : nat) (cs : list nat) (l : list A) : list A := map snd (filter (fun p => Nat.eqb (fst p) j) (combine cs l)).
(** the weight that one filter keeps for the targets ds, started at w0, when an error e moves it by phi e: the predictions and the final value *)
Fixpoint solo (phi : R -> R) (w0 : R) (ds : rvec) : rvec := match ds with [] => [] | t :: ds => w0 :: solo phi (w0 + phi (t - w0)) ds end.
Fixpoint solo_end (phi : R -> R) (w0 : R) (ds : rvec) : R := match ds with [] => w0 | t :: ds => solo_end phi (w0 + phi (t - w0)) ds end.

Lemma onehot_length n j : length (onehot n j) = n.
Proof. unfold onehot. rewrite map_length, seq_length. reflexivity. Qed.
Lemma onehot_nth n j i : (i < n)%nat -> nth i (onehot n j) 0 = if Nat.eqb j i then 1 else 0.
Proof. intros Hi. unfold onehot. rewrite (nth_indep _ 0 ((fun i => if Nat.eqb j i then 1 else 0) 0%nat)) by (rewrite map_length, seq_length; exact Hi). rewrite (map_nth (fun i => if Nat.eqb j i then 1 else 0)), seq_nth by exact Hi. reflexivity. Qed.
Lemma onehot_dot n j w : (j < n)%nat -> length w = n -> Rdot (onehot n j) w = nth j w 0.
Proof.
  intros Hj Lw. rewrite (Rdot_sumn n) by (auto; apply onehot_length). rewrite (sumn_ext n _ (fun i => (if Nat.eqb j i then 1 else 0) * nth i w 0)) by (intros; rewrite onehot_nth by assumption; reflexivity).
  apply sumn_delta. exact Hj.
Qed.
Lemma onehot_norm n j : (j < n)%nat -> normsq (onehot n j) = 1.
Proof. intros Hj. unfold normsq. rewrite onehot_dot by (auto; apply onehot_length). rewrite onehot_nth, Nat.eqb_refl by exact Hj. reflexivity. Qed.
Lemma onehot_one : onehot 1 0 = [1]. Proof. reflexivity. Qed.

(** what a memoryless class does with such a row: only the weight of the category moves *)
Lemma onehot_textbook c mu e n j p : (j < n)%nat -> textbook c mu e [1] = Some [p] ->
  exists dw, textbook c mu e (onehot n j) = Some dw /\ length dw = n /\ forall i, (i < n)%nat -> nth i dw 0 = if Nat.eqb j i then p else 0.
Proof.
  intros Hj H. assert (N1 : normsq [1] = 1) by (unfold normsq; cbn; ring). pose proof (onehot_norm n j Hj) as N2.
  assert (Hmap : forall f : R -> R, f 0 = 0 -> length (map f (onehot n j)) = n /\ forall i, (i < n)%nat -> nth i (map f (onehot n j)) 0 = if Nat.eqb j i then f 1 else 0).
  { intros f F0. split; [rewrite map_length; apply onehot_length|]. intros i Hi. rewrite (nth_indep _ 0 (f 0)) by (rewrite map_length, onehot_length; exact Hi).
    rewrite (map_nth f), onehot_nth by exact Hi. destruct (Nat.eqb j i); auto. }
  assert (Hs : Rsgn 0 = 0) by (unfold Rsgn; repeat destruct Rlt_dec; try lra; try reflexivity; unfold Rltb in *; try lra).
  destruct c; cbn [textbook] in *; try discriminate; injection H as <-; eexists; (split; [reflexivity|]).
  1: { split; [rewrite repeat_length; apply onehot_length|]. intros i Hi. rewrite onehot_length. replace (nth i (repeat 0 n) 0) with 0; [destruct (Nat.eqb j i); reflexivity|].
       symmetry. destruct (nth_in_or_default i (repeat 0 n) 0) as [Hin|Hd]; [apply repeat_spec in Hin; exact Hin|exact Hd]. }
  all: cbn [map vsc length repeat]; rewrite ?N1, ?N2; unfold vsc; 
    match goal with |- length (map ?f _) = _ /\ _ => destruct (Hmap f) as (L & V); [cbv beta; rewrite ?Hs; ring|split; [exact L|intros i Hi; rewrite V by exact Hi; destruct (Nat.eqb j i); reflexivity]] end.
Qed.

Lemma pick_cons {A} j c cs (a : A) l : pick j (c :: cs) (a :: l) = if Nat.eqb c j then a :: pick j cs l else pick j cs l.
Proof. unfold pick. cbn [combine filter fst]. destruct (Nat.eqb c j); reflexivity. Qed.
Lemma pick_length {A} j cs (l : list A) : length cs = length l -> length (pick j cs l) = length (filter (fun c => Nat.eqb c j) cs).
Proof. revert l. induction cs as [|c cs IH]; intros [|a l] H; try discriminate H; [reflexivity|]. rewrite pick_cons. cbn [filter]. injection H as H. destruct (Nat.eqb c j); cbn [length]; rewrite IH by exact H; reflexivity. Qed.
Lemma solo_length phi w0 ds : length (solo phi w0 ds) = length ds.
Proof. revert w0. induction ds as [|t ds IH]; intros w0; cbn [solo length]; [reflexivity|rewrite IH; reflexivity]. Qed.

(** a weight that moves by phi e at its own samples only, and is predicted there *)
Lemma solo_of phi j cs : forall (d y e : rvec) (W : nat -> R), length d = length cs -> length y = length cs -> length e = length cs ->
  (forall k, (k < length cs)%nat -> nth k e 0 = nth k d 0 - nth k y 0 /\ (nth k cs 0%nat = j -> nth k y 0 = W k /\ W (S k) = W k + phi (nth k e 0)) /\ (nth k cs 0%nat <> j -> W (S k) = W k)) ->
  pick j cs y = solo phi (W 0%nat) (pick j cs d) /\ pick j cs e = map2 Rminus (pick j cs d) (pick j cs y) /\ W (length cs) = solo_end phi (W 0%nat) (pick j cs d).
Proof.
  induction cs as [|c cs IH]; intros d y e W Ld Ly Le H; destruct d as [|d0 d]; destruct y as [|y0 y]; destruct e as [|e0 e]; try discriminate; [repeat split|].
  rewrite !pick_cons. cbn [length] in *. destruct (H 0%nat ltac:(lia)) as (E & Y & NY). cbn [nth] in E, Y, NY.
  destruct (IH d y e (fun k => W (S k)) ltac:(lia) ltac:(lia) ltac:(lia) (fun k Hk => H (S k) ltac:(lia))) as (I1 & I2 & I3).
  destruct (Nat.eqb_spec c j) as [Hc|Hc].
  - destruct (Y Hc) as (Y1 & Y2). cbn [solo solo_end map2]. rewrite I1, I2, I3, Y1, Y2, E, Y1, I1, Y2, E, Y1. repeat split.
  - rewrite <- (NY Hc). auto.
Qed.

(** the running average with step m, written out *)
Lemma solo_average m ds : forall w0 i, (i < length ds)%nat ->
  nth i (solo (fun e => m * e) w0 ds) 0 = (1 - m) ^ i * w0 + m * sumn i (fun l => (1 - m) ^ (i - 1 - l) * nth l ds 0).
Proof.
  induction ds as [|t ds IH]; intros w0 i Hi; [inversion Hi|]. destruct i as [|i].
  - cbn [solo nth pow sumn]. ring.
  - change (nth (S i) (solo (fun e => m * e) w0 (t :: ds)) 0) with (nth i (solo (fun e => m * e) (w0 + m * (t - w0)) ds) 0). rewrite IH by (cbn [length] in Hi; lia).
    assert (HS : sumn (S i) (fun l => (1 - m) ^ (S i - 1 - l) * nth l (t :: ds) 0) = (1 - m) ^ i * t + sumn i (fun l => (1 - m) ^ (i - 1 - l) * nth l ds 0)).
    { change (S i) with (1 + i)%nat. rewrite sumn_split. f_equal.
      - cbn [sumn nth]. replace (1 + i - 1 - 0)%nat with i by lia. ring.
      - apply sumn_ext. intros k Hk. change (nth (1 + k) (t :: ds) 0) with (nth k ds 0). do 2 f_equal. lia. }
    rewrite HS. cbn [pow]. ring.
Qed.
(** it stays between the bounds of the targets and the start *)
Lemma solo_hull m lo hi ds : 0 <= m <= 1 -> forall w0, lo <= w0 <= hi -> (forall t, In t ds -> lo <= t <= hi) ->
  (forall v, In v (solo (fun e => m * e) w0 ds) -> lo <= v <= hi) /\ lo <= solo_end (fun e => m * e) w0 ds <= hi.
Proof.
  intros Hm. induction ds as [|t ds IH]; intros w0 Hw Hd; cbn [solo solo_end].
  - split; [intros v []|exact Hw].
  - specialize (Hd t (or_introl eq_refl)) as Ht. destruct (IH (w0 + m * (t - w0))) as (I1 & I2).
    + assert (A : 0 <= m * (t - lo)) by (apply Rmult_le_pos; lra). assert (B : 0 <= (1 - m) * (w0 - lo)) by (apply Rmult_le_pos; lra).
      assert (C : 0 <= m * (hi - t)) by (apply Rmult_le_pos; lra). assert (D : 0 <= (1 - m) * (hi - w0)) by (apply Rmult_le_pos; lra). lra.
    + intros v Hv. apply Hd. right. exact Hv.
    + split; [|exact I2]. intros v [<-|Hv]; [exact Hw|auto].
Qed.

Section S.
  Variable solve : list rvec -> list rvec -> option (list rvec).
  #[local] Hint Extern 0 (Num R) => exact (RNum solve) : typeclass_instances.
  Notation obj := (obj R).

  Lemma onehot_rows n cs : rowsl n (map (onehot n) cs).
  Proof. apply Forall_forall. intros v Hv. apply in_map_iff in Hv. destruct Hv as (c & <- & _). apply onehot_length. Qed.
  Lemma onehot_row n cs k : (k < length cs)%nat -> nth k (map (onehot n) cs) [] = onehot n (nth k cs 0%nat).
  Proof. intros Hk. rewrite (nth_indep _ [] (onehot n 0)) by (rewrite map_length; exact Hk). apply map_nth. Qed.

  (** *** C125: the weight, the predictions and the errors of every category are those of a filter that sees this category only *)
  Theorem C125_categories : forall n cs phi (o o' : obj) d y e w, reachable n o -> (forall er, textbook (o_ext o) (o_mu o) er [1] = Some [phi er]) ->
    (forall c, In c cs -> (c < n)%nat) -> run d (map (onehot n) cs) o = (o', Ok (y, e, w)) ->
    forall j, (j < n)%nat ->
      pick j cs y = solo phi (nth j (o_w o) 0) (pick j cs d) /\
      pick j cs e = map2 Rminus (pick j cs d) (pick j cs y) /\
      nth j (o_w o') 0 = solo_end phi (nth j (o_w o) 0) (pick j cs d).
  Proof.
    intros n cs phi o o' d y e w Hr Hphi Hcs E j Hj. pose proof (reachable_wf _ _ Hr) as Hwf.
    assert (Ht : forall e v, textbook (o_ext o) (o_mu o) e v <> None) by (intros e0 v; destruct (textbook_some _ _ _ _ e0 v _ (Hphi 0)) as (dw & ->); discriminate).
    destruct (run_lengths solve n o o' d _ y e w Hwf (onehot_rows n cs) E) as (Hl & Hne & Hly & Hle & Hlw & _ & _ & Hw & HO & _). rewrite map_length in *.
    destruct (solo_of phi j cs d y e (fun k => nth j (wrow w (o_w o') k) 0) Hl Hly Hle) as (A & B & C).
    - intros k Hk. destruct (run_textbook solve n o o' d _ y e w k Hwf (onehot_rows n cs) Ht E ltac:(rewrite map_length; exact Hk)) as (dw & Hdw & Hw1 & Hy & He & Lw & _).
      rewrite onehot_row in Hdw, Hy by exact Hk. assert (Hc : (nth k cs 0 < n)%nat) by (apply Hcs, nth_In; exact Hk).
      destruct (onehot_textbook _ _ (nth k e 0) n (nth k cs 0%nat) _ Hc (Hphi _)) as (dw' & Hdw' & Ldw & Vdw). rewrite Hdw' in Hdw. injection Hdw as ->.
      rewrite Rdot_comm, onehot_dot in Hy by assumption.
      assert (HS : nth j (wrow w (o_w o') (S k)) 0 = nth j (wrow w (o_w o') k) 0 + nth j dw 0) by (rewrite Hw1; apply nth_vadd; congruence).
      split; [exact He|]. rewrite HS, (Vdw j Hj). split; intros Hk'; [rewrite Hk' in *|].
      + rewrite Nat.eqb_refl. split; [exact Hy|reflexivity].
      + replace (Nat.eqb (nth k cs 0%nat) j) with false by (symmetry; apply Nat.eqb_neq; exact Hk'). ring.
    - assert (W0 : wrow w (o_w o') 0 = o_w o).
      { unfold wrow. rewrite app_nth1 by (destruct cs; [contradiction|rewrite Hlw; cbn [length]; lia]). rewrite Hw. rewrite wtrace_nth; [reflexivity|rewrite map_length; exact Hl|destruct cs; [contradiction|cbn [map length]; lia]|exact HO]. }
      assert (WN : wrow w (o_w o') (length cs) = o_w o') by (unfold wrow; rewrite <- Hlw, nth_middle || rewrite app_nth2, Hlw, Nat.sub_diag by lia; reflexivity).
      rewrite W0, WN in *. auto.
  Qed.

  Lemma pick_all {A} cs (l : list A) : length cs = length l -> (forall c, In c cs -> c = 0%nat) -> pick 0 cs l = l.
  Proof. revert l. induction cs as [|c cs IH]; intros [|a l] H Hc; try discriminate H; [reflexivity|]. rewrite pick_cons. rewrite (Hc c (or_introl eq_refl)). cbn [Nat.eqb]. f_equal. apply IH; [injection H as H; exact H|]. intros c' Hc'. apply Hc. right. exact Hc'. Qed.
  Lemma ones_onehot N : repeat [1] N = map (onehot 1) (repeat 0%nat N).
  Proof. induction N as [|N IH]; [reflexivity|]. cbn [repeat map]. rewrite IH. reflexivity. Qed.

  Lemma onehot_len n cs (o o' : obj) d y e w : reachable n o -> run d (map (onehot n) cs) o = (o', Ok (y, e, w)) -> length (o_w o') = n.
  Proof.
    intros Hr E. pose proof (reachable_wf _ _ Hr) as Hwf.
    destruct (run_lengths solve n o o' d _ y e w Hwf (onehot_rows n cs) E) as (_ & _ & _ & _ & _ & _ & _ & _ & _ & ->).
    destruct (adapt_all_ok n d (map (onehot n) cs) o Hwf) as (s' & r & -> & Hs & _); [apply Forall_forall; intros v Hv; apply in_map_iff in Hv; destruct Hv as (c & <- & _); apply onehot_length|]. apply Hs.
  Qed.
  (** *** so one filter on n categories is n filters with one weight each, run on the samples of their category, in any interleaving *)
  Theorem C125_decouple : forall n cs phi (o o' oj oj' : obj) d y e w j N yj ej wj, reachable n o -> (forall er, textbook (o_ext o) (o_mu o) er [1] = Some [phi er]) ->
    (forall c, In c cs -> (c < n)%nat) -> run d (map (onehot n) cs) o = (o', Ok (y, e, w)) ->
    (j < n)%nat -> reachable 1 oj -> o_ext oj = o_ext o -> o_mu oj = o_mu o -> o_w oj = [nth j (o_w o) 0] ->
    run (pick j cs d) (repeat [1] N) oj = (oj', Ok (yj, ej, wj)) ->
    yj = pick j cs y /\ ej = pick j cs e /\ o_w oj' = [nth j (o_w o') 0].
  Proof.
    intros n cs phi o o' oj oj' d y e w j N yj ej wj Hr Hphi Hcs E Hj Hr1 HE HM HW E1.
    destruct (C125_categories n cs phi o o' d y e w Hr Hphi Hcs E j Hj) as (A1 & A2 & A3). rewrite ones_onehot in E1.
    assert (Hphi1 : forall er, textbook (o_ext oj) (o_mu oj) er [1] = Some [phi er]) by (rewrite HE, HM; exact Hphi).
    assert (H0 : forall c, In c (repeat 0%nat N) -> c = 0%nat) by (intros c Hc; apply repeat_spec in Hc; exact Hc).
    destruct (C125_categories 1 (repeat 0%nat N) phi oj oj' _ yj ej wj Hr1 Hphi1 ltac:(intros c Hc; rewrite (H0 c Hc); lia) E1 0 ltac:(lia)) as (B1 & B2 & B3).
    destruct (run_lengths solve 1 oj oj' _ _ yj ej wj (reachable_wf _ _ Hr1) (onehot_rows 1 _) E1) as (Hl & _ & Hly & Hle & _). rewrite map_length in *.
    rewrite (pick_all _ (pick j cs d)) in B1, B2, B3 by (auto; congruence). rewrite (pick_all _ yj) in B1, B2 by (auto; congruence). rewrite (pick_all _ ej) in B2 by (auto; congruence). rewrite HW in B1, B3. cbn [nth] in B1, B3.
    rewrite <- A1 in B1. rewrite <- A3 in B3. subst yj. rewrite B2, A2. split; [reflexivity|]. split; [reflexivity|].
    assert (L1 : length (o_w oj') = 1%nat) by exact (onehot_len _ _ _ _ _ _ _ _ Hr1 E1).
    destruct (o_w oj') as [|a [|]]; try discriminate L1. cbn [nth] in B3. rewrite B3. reflexivity.
  Qed.

  (** *** the order in which the categories come does not matter *)
  Theorem C125_interleaving : forall n cs cs' phi (o o1 o2 : obj) d d' y e w y' e' w', reachable n o -> (forall er, textbook (o_ext o) (o_mu o) er [1] = Some [phi er]) ->
    (forall c, In c cs -> (c < n)%nat) -> (forall c, In c cs' -> (c < n)%nat) -> (forall j, pick j cs d = pick j cs' d') ->
    run d (map (onehot n) cs) o = (o1, Ok (y, e, w)) -> run d' (map (onehot n) cs') o = (o2, Ok (y', e', w')) ->
    o_w o1 = o_w o2 /\ forall j, (j < n)%nat -> pick j cs y = pick j cs' y' /\ pick j cs e = pick j cs' e'.
  Proof.
    intros n cs cs' phi o o1 o2 d d' y e w y' e' w' Hr Hphi Hcs Hcs' HP E1 E2. split.
    - pose proof (onehot_len _ _ _ _ _ _ _ _ Hr E1) as L1. pose proof (onehot_len _ _ _ _ _ _ _ _ Hr E2) as L2.
      apply (nth_ext _ _ 0 0); [congruence|]. intros j Hj. rewrite L1 in Hj.
      destruct (C125_categories n cs phi o o1 d y e w Hr Hphi Hcs E1 j Hj) as (_ & _ & ->). destruct (C125_categories n cs' phi o o2 d' y' e' w' Hr Hphi Hcs' E2 j Hj) as (_ & _ & ->).
      rewrite HP. reflexivity.
    - intros j Hj. destruct (C125_categories n cs phi o o1 d y e w Hr Hphi Hcs E1 j Hj) as (A1 & A2 & _). destruct (C125_categories n cs' phi o o2 d' y' e' w' Hr Hphi Hcs' E2 j Hj) as (B1 & B2 & _).
      rewrite A2, B2, A1, B1, HP. auto.
  Qed.

  (** *** LMS and NLMS: the prediction for a category is the exponentially weighted average of the earlier targets of this category *)
  Theorem C125_average : forall n cs m (o o' : obj) d y e w, reachable n o -> step_is o 1 m ->
    (forall c, In c cs -> (c < n)%nat) -> run d (map (onehot n) cs) o = (o', Ok (y, e, w)) ->
    forall j, (j < n)%nat ->
      (forall i, (i < length (pick j cs d))%nat ->
        nth i (pick j cs y) 0 = (1 - m) ^ i * nth j (o_w o) 0 + m * sumn i (fun l => (1 - m) ^ (i - 1 - l) * nth l (pick j cs d) 0)) /\
      (forall lo hi, 0 <= m <= 1 -> lo <= nth j (o_w o) 0 <= hi -> (forall t, In t (pick j cs d) -> lo <= t <= hi) ->
        (forall v, In v (pick j cs y) -> lo <= v <= hi) /\ lo <= nth j (o_w o') 0 <= hi).
  Proof.
    intros n cs m o o' d y e w Hr HS Hcs E j Hj.
    assert (Hphi : forall er, textbook (o_ext o) (o_mu o) er [1] = Some [m * er]).
    { intros er. destruct HS as [(-> & ->)|(eps & -> & Hn & ->)]; cbn [textbook vsc map]; do 2 f_equal; [ring|]. unfold normsq. cbn [Rdot]. field. lra. }
    destruct (C125_categories n cs _ o o' d y e w Hr Hphi Hcs E j Hj) as (A1 & _ & A3). rewrite A1, A3. split.
    - intros i Hi. apply solo_average. exact Hi.
    - intros lo hi Hm Hw Hd. apply solo_hull; assumption.
  Qed.

  (** *** RLS: the estimate of a category is the discounted mean of its targets; the discount counts the samples of all categories *)
  Theorem C125_RLS : forall n cs eps (o o' : obj) d e w, rls_run solve n eps o o' d (map (onehot n) cs) e w -> (forall c, In c cs -> (c < n)%nat) ->
    forall j k, (j < n)%nat -> (k <= length cs)%nat ->
      (o_mu o ^ k * eps + sumn k (fun i => if Nat.eqb (nth i cs 0%nat) j then o_mu o ^ (k - 1 - i) else 0)) * nth j (wrow w (o_w o') k) 0 =
      o_mu o ^ k * eps * nth j (o_w o) 0 + sumn k (fun i => if Nat.eqb (nth i cs 0%nat) j then o_mu o ^ (k - 1 - i) * nth i d 0 else 0).
  Proof.
    intros n cs eps o o' d e w HR Hcs j k Hj Hk.
    destruct (normal solve n eps o o' d _ e w k (onehot n j) HR ltac:(rewrite map_length; exact Hk) (onehot_length n j)) as (Lw & Lo & _ & HN).
    set (W := wrow w (o_w o') k) in *. rewrite Rdot_comm, onehot_dot in HN by (auto; apply vsub_length; auto). rewrite nth_vsub in HN by congruence.
    rewrite (sumn_ext k _ (fun i => (if Nat.eqb (nth i cs 0%nat) j then o_mu o ^ (k - 1 - i) * nth i d 0 else 0) - nth j W 0 * (if Nat.eqb (nth i cs 0%nat) j then o_mu o ^ (k - 1 - i) else 0))) in HN.
    2: { intros i Hi. rewrite onehot_row by lia. assert (Hc : (nth i cs 0 < n)%nat) by (apply Hcs, nth_In; lia).
         rewrite (Rdot_comm W), (onehot_dot n (nth i cs 0%nat) W) by assumption. rewrite onehot_dot, onehot_nth by (auto; apply onehot_length).
         destruct (Nat.eqb_spec (nth i cs 0%nat) j) as [->|]; ring. }
    rewrite sumn_minus in HN.
    assert (HS : sumn k (fun i => nth j W 0 * (if Nat.eqb (nth i cs 0%nat) j then o_mu o ^ (k - 1 - i) else 0)) = nth j W 0 * sumn k (fun i => if Nat.eqb (nth i cs 0%nat) j then o_mu o ^ (k - 1 - i) else 0)) by apply sumn_scal.
    rewrite HS in HN. lra.
  Qed.
  (** without forgetting it is the ridge mean of the category *)
  Theorem C125_RLS_mean : forall n cs eps (o o' : obj) d e w, rls_run solve n eps o o' d (map (onehot n) cs) e w -> (forall c, In c cs -> (c < n)%nat) -> o_mu o = 1 ->
    forall j, (j < n)%nat ->
      (eps + INR (length (pick j cs d))) * nth j (o_w o') 0 = eps * nth j (o_w o) 0 + fold_right Rplus 0 (pick j cs d).
  Proof.
    intros n cs eps o o' d e w HR Hcs Hm j Hj. pose proof (C125_RLS n cs eps o o' d e w HR Hcs j (length cs) Hj (le_n _)) as H. rewrite Hm, pow1, Rmult_1_l in H.
    assert (Hl : length d = length cs /\ wrow w (o_w o') (length cs) = o_w o').
    { destruct HR as (rng & kw & R0 & y & Hrng & Hkw & Hn & Hnew & _ & _ & _ & Hx & E).
      destruct (run_lengths solve n o o' d _ y e w (new_filter_wf rng KRLS kw n o Hrng Hkw Hn Hnew) (onehot_rows n cs) E) as (Hl & _ & _ & _ & Hlw & _). rewrite map_length in *.
      split; [exact Hl|]. unfold wrow. rewrite <- Hlw. apply nth_middle. }
    destruct Hl as (Hl & HW). rewrite HW in H. clear HW HR.
    assert (G : forall (cs : list nat) (d : rvec), length d = length cs ->
      sumn (length cs) (fun i => if Nat.eqb (nth i cs 0%nat) j then 1 ^ (length cs - 1 - i) else 0) = INR (length (pick j cs d)) /\
      sumn (length cs) (fun i => if Nat.eqb (nth i cs 0%nat) j then 1 ^ (length cs - 1 - i) * nth i d 0 else 0) = fold_right Rplus 0 (pick j cs d)).
    { clear. induction cs as [|c cs IH]; intros [|t d] Hl; try discriminate Hl; [split; reflexivity|]. destruct (IH d ltac:(injection Hl as H; exact H)) as (I1 & I2). cbn [length]. change (S (length cs)) with (1 + length cs)%nat. rewrite !sumn_split, pick_cons.
      cbn [sumn nth]. rewrite (sumn_ext (length cs) _ (fun i => if Nat.eqb (nth i cs 0%nat) j then 1 ^ (length cs - 1 - i) else 0)) by (intros; cbn [Nat.add nth]; rewrite !pow1; reflexivity).
      rewrite I1. 
      match goal with |- _ /\ ?a + sumn _ ?f = _ => rewrite (sumn_ext (length cs) f (fun i => if Nat.eqb (nth i cs 0%nat) j then 1 ^ (length cs - 1 - i) * nth i d 0 else 0)) by (intros; cbn [Nat.add nth]; rewrite !pow1; reflexivity) end.
      rewrite I2. destruct (Nat.eqb c j); cbn [length fold_right]; rewrite ?S_INR, ?pow1; split; ring. }
    destruct (G cs d Hl) as (G1 & G2). rewrite G1, G2 in H. exact H.
  Qed.

  (** the movement phi of the eight memoryless classes *)
  Theorem C125_steps : forall mu eps la al er, eps + 1 <> 0 ->
    textbook XLMS mu er [1] = Some [mu * er] /\ textbook XLMF mu er [1] = Some [mu * er ^ 3] /\ textbook XSSLMS mu er [1] = Some [mu * Rsgn er] /\
    textbook (XNLMS eps) mu er [1] = Some [mu / (eps + 1) * er] /\ textbook (XNLMF eps) mu er [1] = Some [mu / (eps + 1) * er ^ 3] /\
    textbook (XNSSLMS eps) mu er [1] = Some [mu / (eps + 1) * Rsgn er] /\
    textbook (XGMCC la al) mu er [1] = Some [mu * la * al * exp (- la * Rpowf (Rabs er) al) * Rpowf (Rabs er) (al - 1) * Rsgn er] /\
    textbook (XLlncosh la) mu er [1] = Some [mu * tanh (la * er)].
  Proof.
    intros mu eps la al er He. assert (N1 : normsq [1] = 1) by (unfold normsq; cbn [Rdot]; ring).
    assert (S1 : Rsgn 1 = 1) by (unfold Rsgn, Rltb; repeat destruct Rlt_dec; lra || reflexivity).
    cbn [textbook map vsc]. rewrite N1, ?S1. repeat split; do 2 f_equal; ring.
  Qed.

  (** *** RLS with forgetting is not a bank of filters: samples of other categories change the estimate *)
  Definition kw2 (mu : R) : kwargs R := mkKw (Some 2%Z) (Some mu) (Some (WVec [0; 0])) (Some 1) None None None None None None None false.
  Lemma rls2 mu (d : rvec) cs : 0 < mu -> length d = length cs -> cs <> [] -> exists (o o' : obj) e w, rls_run solve 2 1 o o' d (map (onehot 2) cs) e w /\ o_mu o = mu /\ o_w o = [0; 0].
  Proof.
    intros Hmu Ld Hne.
    assert (Hnew : exists (o : obj) R0, new_filter rngR KRLS (kw2 mu) = Ok o /\ o_mu o = mu /\ o_w o = [0; 0] /\ o_ext o = XRLS 1 R0).
    { destruct (new_filter rngR KRLS (kw2 mu)) as [o|] eqn:Eo; revert Eo; unfold new_filter; cbn; rewrite Reqb_1_0; [|discriminate].
      intros [= <-]. do 2 eexists. split; [reflexivity|]. split; [reflexivity|]. split; reflexivity. }
    destruct Hnew as (o & R0 & Ho & Hm & Hw & HE).
    assert (Hkw : sane_kw (kw2 mu)) by (split; intros ? H; discriminate H).
    assert (Hr : reachable 2 o) by (apply (reach_new 2 rngR KRLS (kw2 mu)); [apply rngR_ok|exact Hkw|reflexivity|exact Ho]).
    destruct (run_exists solve 2 o d (map (onehot 2) cs) Hr (onehot_rows 2 cs)) as (o' & y & e & w & E).
    - rewrite map_length. exact Ld.
    - destruct cs; [congruence|discriminate].
    - intros ex. unfold soft_exn. rewrite HE, Hm. intros (_ & He). cbn in He. unfold Reqb in He. destruct (Req_EM_T mu 0); [lra|discriminate].
    - exists o, o', e, w. split; [|split; [exact Hm|exact Hw]]. exists rngR, (kw2 mu), R0, y. split; [apply rngR_ok|]. split; [exact Hkw|]. split; [reflexivity|].
      split; [exact Ho|]. split; [exact HE|]. split; [lra|]. split; [lra|]. split; [apply onehot_rows|exact E].
  Qed.
  Lemma rls_end n eps cs (o o' : obj) d e w : rls_run solve n eps o o' d (map (onehot n) cs) e w -> wrow w (o_w o') (length cs) = o_w o'.
  Proof.
    intros (rng & kw & R0 & y & Hrng & Hkw & Hn & Hnew & _ & _ & _ & Hx & E).
    destruct (run_lengths solve n o o' d _ y e w (new_filter_wf rng KRLS kw n o Hrng Hkw Hn Hnew) (onehot_rows n cs) E) as (Hl & _ & _ & _ & Hlw & _). rewrite map_length in *.
    unfold wrow. rewrite <- Hlw. apply nth_middle.
  Qed.
  Theorem C125_RLS_not_separate : exists (o1 o1' o2 o2' : obj) e1 w1 e2 w2,
    rls_run solve 2 1 o1 o1' [1; 0] (map (onehot 2) [0; 0]%nat) e1 w1 /\ rls_run solve 2 1 o2 o2' [1; 5; 0] (map (onehot 2) [0; 1; 0]%nat) e2 w2 /\
    o_mu o1 = 1 / 2 /\ o_mu o2 = 1 / 2 /\ o_w o1 = [0; 0] /\ o_w o2 = [0; 0] /\
    pick 0 [0; 0]%nat [1; 0] = pick 0 [0; 1; 0]%nat [1; 5; 0] /\
    nth 0 (o_w o1') 0 = 2 / 7 /\ nth 0 (o_w o2') 0 = 2 / 11.
  Proof.
    destruct (rls2 (1 / 2) [1; 0] [0; 0]%nat ltac:(lra) eq_refl ltac:(discriminate)) as (o1 & o1' & e1 & w1 & H1 & M1 & W1).
    destruct (rls2 (1 / 2) [1; 5; 0] [0; 1; 0]%nat ltac:(lra) eq_refl ltac:(discriminate)) as (o2 & o2' & e2 & w2 & H2 & M2 & W2).
    exists o1, o1', o2, o2', e1, w1, e2, w2. split; [exact H1|]. split; [exact H2|]. split; [exact M1|]. split; [exact M2|]. split; [exact W1|]. split; [exact W2|]. split; [reflexivity|].
    assert (C1 : forall c, In c [0; 0]%nat -> (c < 2)%nat) by (intros c [<-|[<-|[]]]; lia). assert (C2 : forall c, In c [0; 1; 0]%nat -> (c < 2)%nat) by (intros c [<-|[<-|[<-|[]]]]; lia).
    pose proof (C125_RLS 2 _ 1 o1 o1' _ e1 w1 H1 C1 0 2 ltac:(lia) ltac:(cbn; lia)) as A. pose proof (C125_RLS 2 _ 1 o2 o2' _ e2 w2 H2 C2 0 3 ltac:(lia) ltac:(cbn; lia)) as B.
    pose proof (rls_end 2 1 [0; 0]%nat o1 o1' _ e1 w1 H1) as E1. pose proof (rls_end 2 1 [0; 1; 0]%nat o2 o2' _ e2 w2 H2) as E2. cbn [length] in E1, E2.
    rewrite E1, M1, W1 in A. rewrite E2, M2, W2 in B. cbn [sumn nth Nat.eqb Nat.sub pow] in A, B. split; lra.
  Qed.

  (** *** hypotheses: two categories, LMS and NLMS *)
  Example C125_hypotheses :
    let o1 := fresh2 (1 / 2) XLMS in let o2 := fresh2 1 (XNLMS 1) in let cs := [0; 1; 1; 0]%nat in let d := [1; 2; 3; 4] in
    reachable 2 o1 /\ reachable 2 o2 /\ step_is o1 1 (1 / 2) /\ step_is o2 1 (1 / 2) /\ (forall c, In c cs -> (c < 2)%nat) /\
    (forall er, textbook (o_ext o1) (o_mu o1) er [1] = Some [1 / 2 * er]) /\ pick 1 cs d = [2; 3] /\ (forall j, pick j cs d = pick j [0; 1; 0; 1]%nat [1; 2; 4; 3]) /\
    (exists o' y e w, run d (map (onehot 2) cs) o1 = (o', Ok (y, e, w))) /\ (exists o' y e w, run d (map (onehot 2) cs) o2 = (o', Ok (y, e, w))) /\
    (exists o' y e w, run [1; 2; 4; 3] (map (onehot 2) [0; 1; 0; 1]%nat) o1 = (o', Ok (y, e, w))) /\
    (exists oj oj' y e w, reachable 1 oj /\ o_ext oj = XLMS /\ o_mu oj = 1 / 2 /\ o_w oj = [0] /\ run [2; 3] (repeat [1] 2) oj = (oj', Ok (y, e, w))) /\
    (exists (o o' : obj) e w, rls_run solve 2 1 o o' d (map (onehot 2) cs) e w /\ o_mu o = 1).
  Proof.
    intros o1 o2 cs d.
    assert (R1 : reachable 2 o1) by (apply (fresh2_reachable solve (1 / 2) None None None KLMS); reflexivity).
    assert (R2 : reachable 2 o2) by (apply (fresh2_reachable solve 1 (Some 1) None None KNLMS); reflexivity).
    split; [exact R1|]. split; [exact R2|].
    split; [left; split; [reflexivity|cbn; field]|]. split; [right; exists 1; split; [reflexivity|]; split; [lra|cbn; field]|].
    split; [intros c [<-|[<-|[<-|[<-|[]]]]]; lia|]. split; [intros er; cbn [textbook o_ext o_mu o1 fresh2 vsc map]; do 2 f_equal; ring|]. split; [reflexivity|].
    split; [intros [|[|j]]; reflexivity|].
    split; [apply (run_exists solve 2); [exact R1|apply onehot_rows|reflexivity|discriminate|intros ex; unfold soft_exn; cbn; auto]|].
    split; [apply (run_exists solve 2); [exact R2|apply onehot_rows|reflexivity|discriminate|intros ex; unfold soft_exn; cbn; auto]|].
    split; [apply (run_exists solve 2); [exact R1|apply onehot_rows|reflexivity|discriminate|intros ex; unfold soft_exn; cbn; auto]|].
    split.
    - set (kw := mkKw (Some 1%Z) (Some (1 / 2)) (Some (WVec [0])) None None None None None None None None false : kwargs R).
      assert (Ho : new_filter rngR KLMS kw = Ok (mkObj [0] 1 (1 / 2) None XLMS)) by reflexivity.
      assert (Hr : reachable 1 (mkObj [0] 1 (1 / 2) None XLMS)) by (apply (reach_new 1 rngR KLMS kw); [apply rngR_ok|split; intros ? H; discriminate H|reflexivity|exact Ho]).
      exists (mkObj [0] 1 (1 / 2) None XLMS).
      destruct (run_exists solve 1 (mkObj [0] 1 (1 / 2) None XLMS) [2; 3] (repeat [1] 2) Hr) as (oj' & y & e & w & E); [repeat constructor|reflexivity|discriminate|intros ex; unfold soft_exn; cbn; auto|].
      exists oj', y, e, w. repeat split; [exact Hr|exact E].
    - destruct (rls2 1 d cs ltac:(lra) eq_refl ltac:(discriminate)) as (o & o' & e & w & H & M & _). exists o, o', e, w. split; [exact H|exact M].
  Qed.
End S.
