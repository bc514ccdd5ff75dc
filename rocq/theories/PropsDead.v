(** C112: an input that is always zero is the same as no input. *)
From Coq Require Import Reals Lra Psatz FunctionalExtensionality.
From Verif Require Import Py Num Numpy Filters Registry Spec StructProofs RunProofs Reach RVec RFilter Steps RMat PropsRun PropsStability PropsAlgebra PropsAP PropsAPConverge PropsRecursion PropsSilence.
Open Scope R_scope.

(** ** Specification *)
(** the list with a put in at position p *)
Definition ins {A} (p : nat) (a : A) (l : list A) : list A := firstn p l ++ a :: skipn p l.
(** the keyword arguments with one more input *)
Definition widened (n p : nat) (a : R) (w0 : rvec) (kw : kwargs R) : kwargs R :=
  mkKw (Some (Z.of_nat (S n))) (kw_mu kw) (Some (WVec (ins p a w0))) (kw_eps kw) (kw_ro kw) (kw_a kw) (kw_lambd kw) (kw_alpha kw) (kw_order kw) (kw_ifc kw) (kw_mem kw) (kw_other kw).

Definition skip (p i : nat) : nat := if (i <? p)%nat then i else S i.

Lemma skip_ne p i : skip p i <> p.
Proof. unfold skip. destruct (Nat.ltb_spec i p); lia. Qed.
Lemma skip_lt n p i : (i < n)%nat -> (skip p i < S n)%nat.
Proof. intros H. unfold skip. destruct (Nat.ltb_spec i p); lia. Qed.
Lemma skip_inj p i j : delta (skip p i) (skip p j) = delta i j.
Proof.
  unfold delta. destruct (Nat.eqb_spec i j) as [->|H]; [rewrite Nat.eqb_refl; reflexivity|].
  rewrite (proj2 (Nat.eqb_neq _ _)); [reflexivity|]. unfold skip. destruct (Nat.ltb_spec i p), (Nat.ltb_spec j p); lia.
Qed.
Lemma skip_onto n p j : (p <= n)%nat -> (j < S n)%nat -> j <> p -> exists i, (i < n)%nat /\ j = skip p i.
Proof.
  intros Hp Hj Hne. destruct (Nat.lt_ge_cases j p) as [H|H].
  - exists j. split; [lia|]. unfold skip. rewrite (proj2 (Nat.ltb_lt _ _)) by exact H. reflexivity.
  - exists (j - 1)%nat. split; [lia|]. unfold skip. rewrite (proj2 (Nat.ltb_ge _ _)) by lia. lia.
Qed.
Lemma sumn_skip n p f : (p <= n)%nat -> sumn (S n) f = sumn n (fun i => f (skip p i)) + f p.
Proof.
  induction n as [|n IH]; intros Hp.
  - assert (p = 0)%nat by lia. subst. cbn. ring.
  - destruct (Nat.eq_dec p (S n)) as [->|Hne].
    + cbn [sumn]. f_equal. change (sumn (S n) f = sumn (S n) (fun i => f (skip (S n) i))). apply sumn_ext. intros i Hi. unfold skip. rewrite (proj2 (Nat.ltb_lt _ _)) by exact Hi. reflexivity.
    + change (sumn (S (S n)) f) with (sumn (S n) f + f (S n)). rewrite IH by lia. cbn [sumn]. unfold skip at 3. rewrite (proj2 (Nat.ltb_ge n p)) by lia. ring.
Qed.
Lemma sumn_skip0 n p f : (p <= n)%nat -> f p = 0 -> sumn (S n) f = sumn n (fun i => f (skip p i)).
Proof. intros Hp H. rewrite (sumn_skip n p) by exact Hp. rewrite H. ring. Qed.
Lemma dotn_skip n p a b : (p <= n)%nat -> b p = 0 -> dotn (S n) a b = dotn n (fun i => a (skip p i)) (fun i => b (skip p i)).
Proof. intros Hp H. unfold dotn. apply (sumn_skip0 n p (fun i => a i * b i)); [exact Hp|rewrite H; ring]. Qed.
Lemma dotn_skip_l n p a b : (p <= n)%nat -> a p = 0 -> dotn (S n) a b = dotn n (fun i => a (skip p i)) (fun i => b (skip p i)).
Proof. intros Hp H. unfold dotn. apply (sumn_skip0 n p (fun i => a i * b i)); [exact Hp|rewrite H; ring]. Qed.
Lemma slot_zero mem v k s : (forall j, v j = 0) -> slot mem v k s = 0.
Proof. intros H. induction k as [|k IH]; [reflexivity|]. cbn [slot]. rewrite H, IH. destruct (_ =? _)%nat; reflexivity. Qed.
Lemma off_zero mem c m : (forall s, m s = 0) -> oc_offset_x mem c m = 0.
Proof.
  intros H. unfold oc_offset_x. rewrite (sumn_zero mem m) by auto. destruct (c <? mem)%nat; [destruct (c =? 0)%nat; [reflexivity|rewrite sumn_zero by auto]|]; unfold Rdiv; ring.
Qed.

Section Dead.
  Variables (n p N : nat) (a : R) (w0 : rvec) (kw : kwargs R) (d : nat -> R) (x : nat -> nat -> R) (y e : nat -> R) (W : nat -> nat -> R).
  Hypothesis Hp : (p <= n)%nat.
  Hypothesis Hz : forall k, x k p = 0.
  Let x' k i := x k (skip p i).
  Let W' k i := W k (skip p i).

  Lemma vb_dead k : vbefore x k p = 0.
  Proof. destruct k; [reflexivity|apply Hz]. Qed.
  Lemma vb_skip k i : vbefore x k (skip p i) = vbefore x' k i.
  Proof. destruct k; reflexivity. Qed.
  Lemma xx_skip k : dotn (S n) (x k) (x k) = dotn n (x' k) (x' k).
  Proof. apply dotn_skip; [exact Hp|apply Hz]. Qed.
  Lemma xv_skip k : dotn (S n) (x k) (vbefore x k) = dotn n (x' k) (vbefore x' k).
  Proof. rewrite (dotn_skip n p) by (exact Hp || apply vb_dead). apply dotn_eq; intros; [reflexivity|apply vb_skip]. Qed.
  Lemma vx_skip k : dotn (S n) (vbefore x k) (x k) = dotn n (vbefore x' k) (x' k).
  Proof. rewrite (dotn_skip n p) by (exact Hp || apply Hz). apply dotn_eq; intros; [apply vb_skip|reflexivity]. Qed.
  Lemma vv_skip k : dotn (S n) (vbefore x k) (vbefore x k) = dotn n (vbefore x' k) (vbefore x' k).
  Proof. rewrite (dotn_skip n p) by (exact Hp || apply vb_dead). apply dotn_eq; intros; apply vb_skip. Qed.
  Lemma vphi_skip k (phi : nat -> R) : dotn (S n) (vbefore x k) phi = dotn n (vbefore x' k) (fun i => phi (skip p i)).
  Proof. rewrite (dotn_skip_l n p) by (exact Hp || apply vb_dead). apply dotn_eq; intros; [apply vb_skip|reflexivity]. Qed.

  Lemma dead_shift c : published c (widened n p a w0 kw) (S n) N d x y e W ->
    (forall k, (k <= N)%nat -> W k p = W 0%nat p) /\ published c kw n N d x' y e W'.
  Proof.
    intros HP.
    assert (HW : (forall k, (k < N)%nat -> W (S k) p = W k p) -> forall k, (k <= N)%nat -> W k p = W 0%nat p).
    { intros H. induction k as [|k IH]; intros Hk; [reflexivity|]. rewrite H by lia. apply IH; lia. }
    assert (LIN : (forall k, (k < N)%nat -> e k = d k - y k) /\ (forall k, (k < N)%nat -> y k = dotn (S n) (W k) (x k)) ->
      (forall k, (k < N)%nat -> e k = d k - y k) /\ (forall k, (k < N)%nat -> y k = dotn n (W' k) (x' k))).
    { intros (H1 & H2). split; [exact H1|]. intros k Hk. rewrite H2 by exact Hk. apply dotn_skip; [exact Hp|apply Hz]. }
    assert (HR : rate c (widened n p a w0 kw) = rate c kw) by (destruct c; reflexivity).
    assert (Hpn : (p < S n)%nat) by lia.
    assert (SL : forall i, (i < n)%nat -> (skip p i < S n)%nat) by (intros; apply skip_lt; assumption).
    unfold published in *. cbv zeta in *. rewrite HR in HP. cbn [widened kw_eps kw_ro kw_a kw_lambd kw_alpha kw_order kw_ifc kw_mem] in HP.
    destruct c.
    - (* AP *) destruct HP as (HL & G & HG & HM). split; [|split; [exact (LIN HL)|]].
      + apply HW. intros k Hk. rewrite HM by assumption. rewrite (sumn_zero (par (kw_order kw) 5%nat)); [ring|]. intros b Hb.
        replace (ago (fun t => x t p) k b) with 0; [ring|]. unfold ago. destruct (_ <=? _)%nat; [symmetry; apply Hz|reflexivity].
      + assert (AZ : forall k b, ago (fun t => x t p) k b = 0) by (intros k b; unfold ago; destruct (_ <=? _)%nat; [apply Hz|reflexivity]).
        exists G. split.
        * intros k b c Hk Hb Hc. rewrite <- (HG k b c Hk Hb Hc). apply sumn_ext. intros l Hl. f_equal. f_equal. rewrite (sumn_skip0 n p); [reflexivity|exact Hp|rewrite AZ; ring].
        * intros k i Hk Hi. unfold W' at 1. rewrite HM by auto. f_equal. f_equal. apply sumn_ext. intros b Hb. f_equal. apply sumn_ext. intros c Hc. f_equal. f_equal.
          rewrite (sumn_skip0 n p); [reflexivity|exact Hp|rewrite AZ; ring].
    - (* GMCC *) destruct HP as (HL & HM). split; [apply HW; intros k Hk; rewrite HM, Hz by assumption; ring|]. split; [exact (LIN HL)|].
      intros k i Hk Hi. unfold W' at 1. rewrite HM by auto. reflexivity.
    - (* GNGD *) destruct HP as (HL & m & H0 & HS & HM). split; [apply HW; intros k Hk; rewrite HM, Hz by assumption; ring|]. split; [exact (LIN HL)|].
      exists m. split; [exact H0|]. split.
      + intros k Hk. rewrite HS by exact Hk. rewrite xv_skip, vv_skip. reflexivity.
      + intros k i Hk Hi. unfold W' at 1. rewrite HM by auto. rewrite xx_skip. reflexivity.
    - destruct HP as (HL & HM). split; [apply HW; intros k Hk; rewrite HM, Hz by assumption; ring|]. split; [exact (LIN HL)|].
      intros k i Hk Hi. unfold W' at 1. rewrite HM by auto. reflexivity.
    - destruct HP as (HL & HM). split; [apply HW; intros k Hk; rewrite HM, Hz by assumption; ring|]. split; [exact (LIN HL)|].
      intros k i Hk Hi. unfold W' at 1. rewrite HM by auto. reflexivity.
    - destruct HP as (HL & HM). split; [apply HW; intros k Hk; rewrite HM, Hz by assumption; ring|]. split; [exact (LIN HL)|].
      intros k i Hk Hi. unfold W' at 1. rewrite HM by auto. reflexivity.
    - destruct HP as (HL & HM). split; [apply HW; intros k Hk; rewrite HM, Hz by assumption; ring|]. split; [exact (LIN HL)|].
      intros k i Hk Hi. unfold W' at 1. rewrite HM by auto. rewrite xx_skip. reflexivity.
    - destruct HP as (HL & HM). split; [apply HW; intros k Hk; rewrite HM, Hz by assumption; ring|]. split; [exact (LIN HL)|].
      intros k i Hk Hi. unfold W' at 1. rewrite HM by auto. rewrite xx_skip. reflexivity.
    - destruct HP as (HL & HM). split; [apply HW; intros k Hk; rewrite HM, Hz, Rsgn_0 by assumption; ring|]. split; [exact (LIN HL)|].
      intros k i Hk Hi. unfold W' at 1. rewrite HM by auto. rewrite xx_skip. reflexivity.
    - (* OCNLMS *) destruct HP as (t & HE & HY & HT & HM).
      assert (ZX : forall q k c, oc_offset_x q c (slot q (fun j => x j p) k) = 0) by (intros q k c; apply off_zero; intros s; apply slot_zero; intros; apply Hz).
      split; [apply HW; intros k Hk; rewrite HM by assumption; rewrite ZX, Hz; ring|].
      exists t. split; [exact HE|]. split; [|split].
      + intros k Hk. rewrite HY by exact Hk. f_equal. rewrite (sumn_skip0 n p); [reflexivity|exact Hp|]. rewrite ZX, Hz. ring.
      + intros k Hk. rewrite HT by exact Hk. f_equal. f_equal. rewrite (dotn_skip n p); [reflexivity|exact Hp|]. rewrite ZX, Hz. ring.
      + intros k i Hk Hi. unfold W' at 1. rewrite HM by auto. f_equal. f_equal. f_equal. f_equal. f_equal. rewrite (dotn_skip n p); [reflexivity|exact Hp|]. rewrite ZX, Hz. ring.
    - (* RLS *) destruct HP as (HL & P & H0 & HS & HM).
      assert (PZ : forall k, (k <= N)%nat -> forall j, (j < S n)%nat -> j <> p -> P k p j = 0).
      { induction k as [|k IH]; intros Hk j Hj Hne.
        - rewrite H0 by assumption. unfold delta. rewrite (proj2 (Nat.eqb_neq _ _)) by auto. ring.
        - rewrite HS by (assumption || lia). rewrite IH by (assumption || lia).
          rewrite (sumn_zero (S n) (fun b => P k p b * x k b)); [unfold Rdiv; ring|]. intros b Hb. destruct (Nat.eq_dec b p) as [->|Hb']; [rewrite Hz; ring|rewrite IH by (assumption || lia); ring]. }
      split.
      + apply HW. intros k Hk. rewrite HM by assumption. rewrite (sumn_zero (S n)); [ring|]. intros b Hb. destruct (Nat.eq_dec b p) as [->|Hb']; [rewrite Hz; ring|rewrite PZ by (assumption || lia); ring].
      + split; [exact (LIN HL)|]. exists (fun k i j => P k (skip p i) (skip p j)).
        assert (PX : forall k i, sumn (S n) (fun b => P k i b * x k b) = sumn n (fun b => P k i (skip p b) * x' k b)) by (intros k i; apply (sumn_skip0 n p (fun b => P k i b * x k b)); [exact Hp|rewrite Hz; ring]).
        split; [|split].
        * intros i j Hi Hj. rewrite H0 by auto. rewrite skip_inj. reflexivity.
        * intros k i j Hk Hi Hj. rewrite HS by auto. f_equal. f_equal. f_equal.
          -- rewrite PX. f_equal. apply (sumn_skip0 n p (fun b => x k b * P k b (skip p j))); [exact Hp|rewrite Hz; ring].
          -- f_equal. rewrite (sumn_skip0 n p); [|exact Hp|rewrite Hz; ring]. apply sumn_ext. intros b Hb. rewrite PX. reflexivity.
        * intros k i Hk Hi. unfold W' at 1. rewrite HM by auto. f_equal. f_equal. apply (sumn_skip0 n p (fun b => P (S k) (skip p i) b * x k b)); [exact Hp|rewrite Hz; ring].
    - destruct HP as (HL & HM). split; [apply HW; intros k Hk; rewrite HM, Hz, Rsgn_0 by assumption; ring|]. split; [exact (LIN HL)|].
      intros k i Hk Hi. unfold W' at 1. rewrite HM by auto. reflexivity.
    - (* Ang *) destruct HP as (HL & m & phi & H0 & F0 & HF & HS & HM). split; [apply HW; intros k Hk; rewrite HM, Hz by assumption; ring|]. split; [exact (LIN HL)|].
      exists m, (fun k i => phi k (skip p i)). split; [exact H0|]. split; [intros; apply F0; auto|]. split; [|split].
      + intros k i Hk Hi. rewrite HF by auto. rewrite vb_skip. reflexivity.
      + intros k Hk. rewrite HS by exact Hk. rewrite vphi_skip. reflexivity.
      + intros k i Hk Hi. unfold W' at 1. rewrite HM by auto. reflexivity.
    - (* Benveniste *) destruct HP as (HL & m & phi & H0 & F0 & HF & HS & HM). split; [apply HW; intros k Hk; rewrite HM, Hz by assumption; ring|]. split; [exact (LIN HL)|].
      exists m, (fun k i => phi k (skip p i)). split; [exact H0|]. split; [intros; apply F0; auto|]. split; [|split].
      + intros k i Hk Hi. rewrite HF by auto. rewrite vb_skip, vphi_skip. reflexivity.
      + intros k Hk. rewrite HS by exact Hk. rewrite vphi_skip. reflexivity.
      + intros k i Hk Hi. unfold W' at 1. rewrite HM by auto. reflexivity.
    - (* Mathews *) destruct HP as (HL & m & H0 & HS & HM). split; [apply HW; intros k Hk; rewrite HM, Hz by assumption; ring|]. split; [exact (LIN HL)|].
      exists m. split; [exact H0|]. split.
      + intros k Hk. rewrite HS by exact Hk. rewrite vx_skip. reflexivity.
      + intros k i Hk Hi. unfold W' at 1. rewrite HM by auto. reflexivity.
  Qed.
End Dead.

Lemma ins_length {A} p (b : A) l : length (ins p b l) = S (length l).
Proof. unfold ins. rewrite app_length. cbn [length]. rewrite <- plus_n_Sm, <- app_length, firstn_skipn. reflexivity. Qed.
Lemma ins_nth_p {A} p (b dflt : A) l : (p <= length l)%nat -> nth p (ins p b l) dflt = b.
Proof. intros H. unfold ins. rewrite app_nth2 by (rewrite firstn_length; lia). rewrite firstn_length, Nat.min_l, Nat.sub_diag by exact H. reflexivity. Qed.
Lemma ins_nth_skip {A} p (b dflt : A) l i : (p <= length l)%nat -> nth (skip p i) (ins p b l) dflt = nth i l dflt.
Proof.
  intros H. unfold ins, skip. destruct (Nat.ltb_spec i p) as [Hi|Hi].
  - rewrite app_nth1 by (rewrite firstn_length; lia). rewrite <- (firstn_skipn p l) at 2. rewrite app_nth1 by (rewrite firstn_length; lia). reflexivity.
  - rewrite app_nth2 by (rewrite firstn_length; lia). rewrite firstn_length, Nat.min_l by exact H. replace (S i - p)%nat with (S (i - p)) by lia. cbn [nth].
    rewrite <- (firstn_skipn p l) at 2. rewrite app_nth2 by (rewrite firstn_length; lia). rewrite firstn_length, Nat.min_l by exact H. reflexivity.
Qed.

Section Program.
  Variable solve : list rvec -> list rvec -> option (list rvec).
  #[local] Hint Extern 0 (Num R) => exact (RNum solve) : typeclass_instances.
  Notation obj := (obj R).

  Lemma widened_w rng c n p b w0 (kw : kwargs R) (o : obj) : new_filter rng c (widened n p b w0 kw) = Ok o -> o_w o = ins p b w0.
  Proof.
    unfold new_filter. destruct (kw_other _); [discriminate|]. destruct (existsb _ _); [discriminate|]. cbn [widened kw_n kw_w opt].
    destruct (match kw_mu _ with Some _ => _ | None => _ end) as [mu|]; [|discriminate].
    unfold init_base. destruct (_ =? -1)%Z; [discriminate|]. cbn [init_weights]. destruct (_ =? _)%Z; [|discriminate]. cbn [rbind rmap].
    destruct (init_ext _ _ _ _) as [x1|]; [|discriminate]. intros [= <-]. reflexivity.
  Qed.

  Theorem C112_dead_input : forall rng c (kw : kwargs R) n p b (oz o o1 o2 : obj) d x y e w y' e' w',
    rng_ok rng -> sane_kw kw -> kw_n kw = Some (Z.of_nat n) -> (p <= n)%nat ->
    (c = KAP -> good_solver solve) -> (c = KOCNLMS -> kw_mem kw <> Some 1%nat) ->
    new_filter rng c kw = Ok oz -> new_filter rng c (widened n p b (o_w oz) kw) = Ok o -> rows_of n x ->
    run d x oz = (o1, Ok (y, e, w)) -> run d (map (ins p 0) x) o = (o2, Ok (y', e', w')) ->
    y' = y /\ e' = e /\ w' = map (ins p b) w /\ o_w o2 = ins p b (o_w o1).
  Proof.
    intros rng c kw n p b oz o o1 o2 d x y e w y' e' w' Hrng Hkw Hn Hp Hap Hoc Hoz Ho Hx HR HR'.
    pose proof (widened_w _ _ _ _ _ _ _ _ Ho) as Hw0.
    pose proof (new_filter_wf rng c kw n oz Hrng Hkw Hn Hoz) as Hwfz.
    assert (Hkw' : sane_kw (widened n p b (o_w oz) kw)) by exact Hkw.
    pose proof (new_filter_wf rng c _ (S n) o Hrng Hkw' eq_refl Ho) as Hwf.
    assert (Hx' : rows_of (S n) (map (ins p 0) x)).
    { apply Forall_map. refine (Forall_impl _ _ Hx). intros r Hr. cbv beta. rewrite ins_length. congruence. }
    destruct (C65_run_follows_the_recursion solve rng c _ (S n) o o2 d _ y' e' w' Hrng Hkw' eq_refl Ho Hap Hoc Hx' HR') as (W0' & P').
    destruct (C65_run_follows_the_recursion solve rng c kw n oz o1 d x y e w Hrng Hkw Hn Hoz Hap Hoc Hx HR) as (W0 & P).
    rewrite map_length in P'.
    destruct (run_lengths solve (S n) o o2 _ _ y' e' w' Hwf Hx' HR') as (Ld' & _ & Ly' & Le' & Lw' & _).
    destruct (run_lengths solve n oz o1 _ _ y e w Hwfz Hx HR) as (Ld & _ & Ly & Le & Lw & _).
    rewrite map_length in Ly', Le', Lw'.
    assert (NX : forall k, (k < length x)%nat -> nth k (map (ins p 0) x) [] = ins p 0 (nth k x []) /\ length (nth k x []) = n).
    { intros k Hk. split; [rewrite (map_nth_lt _ _ _ []) by exact Hk; reflexivity|apply nth_rows; assumption]. }
    assert (Hz : forall k, (fun k i => nth i (nth k (map (ins p 0) x) []) 0) k p = 0).
    { intros k. cbv beta. destruct (Nat.lt_ge_cases k (length x)) as [H|H].
      - destruct (NX k H) as (-> & L). apply ins_nth_p. lia.
      - rewrite (nth_overflow (map _ _)) by (rewrite map_length; exact H). destruct p; reflexivity. }
    destruct (dead_shift n p (length x) b (o_w oz) kw _ _ _ _ _ Hp Hz c P') as (S2 & S3). cbv beta in S2, S3.
    replace (fun k i => nth (skip p i) (nth k (map (ins p 0) x) []) 0) with (fun k i => nth i (nth k x []) 0) in S3.
    2: { extensionality k; extensionality i. destruct (Nat.lt_ge_cases k (length x)) as [H|H].
         - destruct (NX k H) as (-> & L). rewrite ins_nth_skip by lia. reflexivity.
         - rewrite !nth_overflow with (n := k) by (rewrite ?map_length; exact H). destruct i, (skip p _); reflexivity. }
    destruct (C65_recursion_determines c kw n (length x) _ _ _ _ _ _ _ _ S3 P) as (T1 & T2).
    { intros i Hi. rewrite W0, W0', Hw0. rewrite ins_nth_skip; [reflexivity|]. rewrite (proj1 Hwfz). exact Hp. }
    assert (RW : forall k, (k <= length x)%nat -> nth k (w' ++ [o_w o2]) [] = ins p b (nth k (w ++ [o_w o1]) [])).
    { intros k Hk. assert (L1 : length (nth k (w' ++ [o_w o2]) []) = S n) by (apply (rows_len solve (S n) o o2 _ _ y' e' w' _ Hwf Hx' HR'); rewrite map_length; exact Hk).
      pose proof (rows_len solve n oz o1 _ _ y e w k Hwfz Hx HR Hk) as L2.
      apply (nth_ext _ _ 0 0); [rewrite ins_length; congruence|]. intros j Hj. rewrite L1 in Hj. destruct (Nat.eq_dec j p) as [->|Hne].
      - rewrite ins_nth_p by lia. rewrite S2 by exact Hk. rewrite W0', Hw0. apply ins_nth_p. rewrite (proj1 Hwfz). exact Hp.
      - destruct (skip_onto n p j Hp Hj Hne) as (i & Hi & ->). rewrite ins_nth_skip by lia. apply T2; assumption. }
    split; [|split; [|split]].
    - apply (nth_ext _ _ 0 0); [congruence|]. intros k Hk. apply T1. lia.
    - apply (nth_ext _ _ 0 0); [congruence|]. intros k Hk. apply T1. lia.
    - apply (nth_ext _ _ [] []); [rewrite map_length; congruence|]. intros k Hk. rewrite Lw' in Hk. rewrite (map_nth_lt _ _ _ []) by lia.
      pose proof (RW k ltac:(lia)) as E. rewrite !app_nth1 in E by lia. exact E.
    - pose proof (RW (length x) (le_n _)) as E. rewrite app_nth2 in E by lia. rewrite app_nth2 in E by lia. rewrite Lw, Lw', !Nat.sub_diag in E. exact E.
  Qed.
End Program.

(** ** The hypotheses can be met, for every class *)
Section Ok.
  #[local] Hint Extern 0 (Num R) => exact (RNum rsolve) : typeclass_instances.
  Notation obj := (obj R).

  Lemma wide_runs c (kw : kwargs R) (o : obj) n d x : kw_mu kw = Some (1 / 2) -> kw_n kw = Some (Z.of_nat n) -> kw_mem kw = None ->
    kw_order kw = match c with KAP => Some 2%nat | _ => None end -> kw_ifc kw = match c with KAP => Some (1 / 2) | _ => None end ->
    new_filter zrng c kw = Ok o -> rows_of n x -> length d = length x -> x <> [] -> sane_kw kw /\ exists o' y e w, run d x o = (o', Ok (y, e, w)).
  Proof.
    intros Hmu0 Hn Hm Hor Hif Ho Hx Hl Hne.
    assert (H1 : rng_ok (T := R) zrng) by (intros k; apply repeat_length).
    assert (H2 : sane_kw kw) by (split; rewrite ?Hm, ?Hor; intros m E; destruct c; try discriminate; injection E as <-; lia).
    split; [exact H2|]. pose proof (reach_new n zrng c kw o H1 H2 Hn Ho) as Hr.
    destruct (match c with KAP => true | _ => false end) eqn:Ec.
    - destruct c; try discriminate. pose proof (reachable_wf n o Hr) as Hwf. destruct (run_eq n o d x Hwf Hx Hl Hne) as (h & E & _). rewrite E.
      pose proof (ap_all_ok kw n o (1 / 2) 2 (1 / 2) rsolve_complete H2 Hn Hmu0 Hor Hif ltac:(lra) Ho d x [] Hx ltac:(constructor)) as E3. change (exec_all [] o) with o in E3.
      rewrite E3. do 4 eexists. reflexivity.
    - apply (run_exists rsolve n); auto. intros ex Hs. unfold soft_exn in Hs.
      destruct (new_filter_rate rsolve _ c kw n o Hn Ho) as (Hmu & _ & Hext).
      destruct c; try discriminate; cbn [init_ext] in Hext.
      all: try (injection Hext as Hext; rewrite <- Hext in Hs; exact Hs).
      match type of Hext with (if ?b then _ else _) = _ => destruct b; [discriminate Hext|] end. injection Hext as Hext. rewrite <- Hext in Hs. destruct Hs as (_ & Hs).
      assert (Hr2 : rate KRLS kw = 1 / 2) by (cbn [rate]; rewrite Hmu0; reflexivity).
      rewrite Hmu, Hr2 in Hs. revert Hs. cbn. unfold Reqb. destruct (Req_EM_T _ _); [lra|discriminate].
  Qed.

  Example C112_hypotheses : forall c,
    rng_ok (T := R) zrng /\ sane_kw (rec_kw c) /\ good_solver rsolve /\
    map (ins 1 0) [[1; 2]; [3; 4]] = [[1; 0; 2]; [3; 0; 4]] /\
    exists (oz o o1 o2 : obj) y e w y' e' w', new_filter zrng c (rec_kw c) = Ok oz /\ new_filter zrng c (widened 2 1 7 (o_w oz) (rec_kw c)) = Ok o /\
      run [1; 2] [[1; 2]; [3; 4]] oz = (o1, Ok (y, e, w)) /\ run [1; 2] (map (ins 1 0) [[1; 2]; [3; 4]]) o = (o2, Ok (y', e', w')).
  Proof.
    intros c. destruct (rec_new c 0) as (oz & _ & Hoz & _).
    assert (Ew : o_w oz = [1; 1]).
    { revert Hoz. unfold new_filter. destruct (kw_other _); [discriminate|]. destruct (existsb _ _); [discriminate|]. cbn [rec_kw kw_n kw_mu kw_w opt]. unfold init_base. cbn [rbind rmap init_weights].
      destruct (_ =? -1)%Z; [discriminate|]. cbn. destruct (init_ext _ _ _ _) as [q|]; [|discriminate]. intros [= <-]. reflexivity. }
    assert (Ho : exists o : obj, new_filter zrng c (widened 2 1 7 (o_w oz) (rec_kw c)) = Ok o).
    { rewrite Ew. destruct c; try (eexists; reflexivity). unfold new_filter. cbn [widened rec_kw kw_other existsb all_params kw_given accepts andb negb orb given kw_n kw_mu kw_w opt].
      cbn. destruct (Reqb _ _) eqn:E; [|eexists; reflexivity]. exfalso. revert E. unfold Reqb. destruct (Req_EM_T _ _) as [E|]; [|discriminate].
      intros _. revert E. unfold Q2R. cbn. lra. }
    destruct Ho as (o & Ho).
    destruct (wide_runs c (rec_kw c) oz 2 [1; 2] [[1; 2]; [3; 4]]) as (Hs & o1 & y & e & w & E); auto; [repeat constructor|discriminate|].
    destruct (wide_runs c (widened 2 1 7 (o_w oz) (rec_kw c)) o 3 [1; 2] [[1; 0; 2]; [3; 0; 4]]) as (_ & o2 & y' & e' & w' & E'); auto; [repeat constructor|discriminate|].
    split; [intros k; apply repeat_length|]. split; [exact Hs|]. split; [exact rsolve_good|]. split; [reflexivity|].
    exists oz, o, o1, o2, y, e, w, y', e', w'. auto.
  Qed.
End Ok.
