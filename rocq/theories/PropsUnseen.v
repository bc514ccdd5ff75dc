(** C113: directions of the weight space that no input has ever shown. *)
From Coq Require Import QArith Reals Lra Psatz FunctionalExtensionality.
From Verif Require Import Py Num NumQ Numpy Filters Registry Spec StructProofs RunProofs Reach RVec RFilter Steps RMat PropsRun PropsStability PropsAlgebra PropsAP PropsAPMem PropsAPConverge PropsRecursion PropsSilence PropsDead.
Open Scope R_scope.

(** ** Specification *)
(** the keyword arguments with these initial weights *)
Definition from_weights (w : rvec) (kw : kwargs R) : kwargs R :=
  mkKw (kw_n kw) (kw_mu kw) (Some (WVec w)) (kw_eps kw) (kw_ro kw) (kw_a kw) (kw_lambd kw) (kw_alpha kw) (kw_order kw) (kw_ifc kw) (kw_mem kw) (kw_other kw).
(** no row of x has a component along v *)
Definition unseen (v : rvec) (x : rmat) : Prop := Forall (fun row => Rdot row v = 0) x.

Definition sign_sign (c : kind) : bool := match c with KSSLMS | KNSSLMS => true | _ => false end.

Section Unseen.
  Variables (n N : nat) (d : nat -> R) (x : nat -> nat -> R) (y e : nat -> R) (W : nat -> nat -> R) (v : nat -> R).
  Hypothesis Hv : forall k, dotn n (x k) v = 0.

  Lemma ago_unseen k a : dotn n (fun i => ago (fun t => x t i) k a) v = 0.
  Proof. unfold ago. destruct (a <=? k)%nat; [apply Hv|]. apply dotn_zero_l. reflexivity. Qed.
  Lemma slot_unseen mem k s : dotn n (fun i => slot mem (fun j => x j i) k s) v = 0.
  Proof.
    induction k as [|k IH]; [apply dotn_zero_l; reflexivity|]. cbn [slot]. destruct (_ =? _)%nat; [apply Hv|exact IH].
  Qed.
  Lemma sum_unseen m (f : nat -> nat -> R) z : (forall s, dotn n (fun i => f i s) v = 0) -> dotn n (fun i => sumn m (f i) / z) v = 0.
  Proof.
    intros H. unfold dotn. rewrite (sumn_ext n _ (fun i => sumn m (fun s => / z * (f i s * v i)))).
    - rewrite sumn_swap. apply sumn_zero. intros s _. rewrite sumn_scal. unfold dotn in H. rewrite H. ring.
    - intros i Hi. unfold Rdiv. rewrite sumn_scal, sumn_scal_r. ring.
  Qed.
  Lemma off_unseen mem c k : dotn n (fun i => oc_offset_x mem c (slot mem (fun j => x j i) k)) v = 0.
  Proof.
    unfold oc_offset_x. destruct (c <? mem)%nat; [destruct (c =? 0)%nat; [apply dotn_zero_l; reflexivity|]|];
      apply (sum_unseen _ (fun i => slot mem (fun j => x j i) k)); intros s; apply slot_unseen.
  Qed.
  Lemma cent_unseen mem c k k2 : dotn n (fun i => x k i - oc_offset_x mem c (slot mem (fun j => x j i) k2)) v = 0.
  Proof.
    transitivity (dotn n (x k) v - dotn n (fun i => oc_offset_x mem c (slot mem (fun j => x j i) k2)) v); [|rewrite Hv, off_unseen; ring].
    unfold dotn. rewrite <- sumn_minus. apply sumn_ext. intros; ring.
  Qed.
  Lemma dot_shift u z : dotn n z v = 0 -> dotn n (fun i => u i + v i) z = dotn n u z.
  Proof.
    intros H. transitivity (dotn n u z + dotn n z v); [|rewrite H; ring]. unfold dotn. rewrite <- sumn_plus. apply sumn_ext. intros; ring.
  Qed.
  Lemma scal_unseen z t : dotn n z v = 0 -> dotn n (fun i => t * z i) v = 0.
  Proof. intros H. unfold dotn in *. rewrite (sumn_ext n _ (fun i => t * (z i * v i))) by (intros; ring). rewrite sumn_scal, H. ring. Qed.

  (** the recursions do not see a shift of the weights along v *)
  Lemma unseen_shift c kw : published c kw n N d x y e W -> published c kw n N d x y e (fun k i => W k i + v i).
  Proof.
    intros HP.
    assert (LIN : (forall k, (k < N)%nat -> e k = d k - y k) /\ (forall k, (k < N)%nat -> y k = dotn n (W k) (x k)) ->
      (forall k, (k < N)%nat -> e k = d k - y k) /\ (forall k, (k < N)%nat -> y k = dotn n (fun i => W k i + v i) (x k))).
    { intros (H1 & H2). split; [exact H1|]. intros k Hk. rewrite H2 by exact Hk. symmetry. apply dot_shift. apply Hv. }
    assert (MV : forall g : nat -> nat -> R, (forall k i, (k < N)%nat -> (i < n)%nat -> W (S k) i = W k i + g k i) ->
      forall k i, (k < N)%nat -> (i < n)%nat -> W (S k) i + v i = W k i + v i + g k i) by (intros g H k i Hk Hi; rewrite H by assumption; ring).
    unfold published in *. cbv zeta in *. destruct c.
    - destruct HP as (HL & G & HG & HM). split; [exact (LIN HL)|]. exists G. split; [exact HG|]. intros k i Hk Hi. rewrite HM by assumption.
      rewrite Rplus_assoc, (Rplus_comm _ (v i)), <- Rplus_assoc. f_equal. f_equal. apply sumn_ext. intros a Ha. f_equal. apply sumn_ext. intros b Hb. f_equal. f_equal.
      pose proof (dot_shift (W k) _ (ago_unseen k b)) as E. unfold dotn in E. transitivity (sumn n (fun i0 => W k i0 * ago (fun t => x t i0) k b)); [apply sumn_ext; intros; ring|].
      rewrite <- E. apply sumn_ext; intros; ring.
    - destruct HP as (HL & HM). split; [exact (LIN HL)|]. apply MV. exact HM.
    - destruct HP as (HL & m & H0 & HS & HM). split; [exact (LIN HL)|]. exists m. split; [exact H0|]. split; [exact HS|]. apply MV. exact HM.
    - destruct HP as (HL & HM). split; [exact (LIN HL)|]. apply MV. exact HM.
    - destruct HP as (HL & HM). split; [exact (LIN HL)|]. apply MV. exact HM.
    - destruct HP as (HL & HM). split; [exact (LIN HL)|]. apply MV. exact HM.
    - destruct HP as (HL & HM). split; [exact (LIN HL)|]. apply MV. exact HM.
    - destruct HP as (HL & HM). split; [exact (LIN HL)|]. apply MV. exact HM.
    - destruct HP as (HL & HM). split; [exact (LIN HL)|]. apply MV. exact HM.
    - destruct HP as (t & HE & HY & HT & HM). exists t. split; [exact HE|]. split; [|split; [|apply MV; exact HM]].
      + intros k Hk. rewrite HY by exact Hk. f_equal. symmetry. apply (dot_shift (W k)). apply cent_unseen.
      + intros k Hk. rewrite HT by exact Hk. f_equal. f_equal. symmetry. apply (dot_shift (W k)). apply cent_unseen.
    - destruct HP as (HL & P & H0 & HS & HM). split; [exact (LIN HL)|]. exists P. split; [exact H0|]. split; [exact HS|]. apply MV. exact HM.
    - destruct HP as (HL & HM). split; [exact (LIN HL)|]. apply MV. exact HM.
    - destruct HP as (HL & m & phi & H0 & F0 & HF & HS & HM). split; [exact (LIN HL)|]. exists m, phi. repeat (split; [assumption|]). apply MV. exact HM.
    - destruct HP as (HL & m & phi & H0 & F0 & HF & HS & HM). split; [exact (LIN HL)|]. exists m, phi. repeat (split; [assumption|]). apply MV. exact HM.
    - destruct HP as (HL & m & H0 & HS & HM). split; [exact (LIN HL)|]. exists m. split; [exact H0|]. split; [exact HS|]. apply MV. exact HM.
  Qed.

  (** the weights do not move along v *)
  Lemma unseen_fixed c kw : published c kw n N d x y e W -> sign_sign c = false -> forall k, (k <= N)%nat -> dotn n (W k) v = dotn n (W 0%nat) v.
  Proof.
    intros HP Hc.
    assert (KEY : forall g : nat -> nat -> R, (forall k i, (k < N)%nat -> (i < n)%nat -> W (S k) i = W k i + g k i) ->
      (forall k, (k < N)%nat -> dotn n (g k) v = 0) -> forall k, (k <= N)%nat -> dotn n (W k) v = dotn n (W 0%nat) v).
    { intros g H Hg. induction k as [|k IH]; intros Hk; [reflexivity|]. rewrite <- IH by lia.
      transitivity (dotn n (W k) v + dotn n (g k) v); [|rewrite Hg by lia; ring]. unfold dotn. rewrite <- sumn_plus. apply sumn_ext. intros i Hi. rewrite H by (assumption || lia). ring. }
    unfold published in HP. cbv zeta in HP. destruct c; try discriminate Hc.
    - destruct HP as (HL & G & HG & HM). apply (KEY _ HM). intros k Hk. apply scal_unseen. unfold dotn.
      rewrite (sumn_ext n _ (fun i => sumn (par (kw_order kw) 5%nat) (fun a => sumn (par (kw_order kw) 5%nat) (fun b => G k a b * (ago d k b - sumn n (fun i0 => ago (fun t => x t i0) k b * W k i0))) * (ago (fun t => x t i) k a * v i)))).
      + rewrite sumn_swap. apply sumn_zero. intros a Ha. rewrite sumn_scal. pose proof (ago_unseen k a) as E. unfold dotn in E. rewrite E. ring.
      + intros i Hi. rewrite <- sumn_scal_r. apply sumn_ext. intros a Ha. ring.
    - destruct HP as (HL & HM). apply (KEY _ HM). intros k Hk. apply scal_unseen. apply Hv.
    - destruct HP as (HL & m & H0 & HS & HM). apply (KEY _ HM). intros k Hk. apply scal_unseen. apply Hv.
    - destruct HP as (HL & HM). apply (KEY _ HM). intros k Hk. apply scal_unseen. apply Hv.
    - destruct HP as (HL & HM). apply (KEY _ HM). intros k Hk. apply scal_unseen. apply Hv.
    - destruct HP as (HL & HM). apply (KEY _ HM). intros k Hk. apply scal_unseen. apply Hv.
    - destruct HP as (HL & HM). apply (KEY _ HM). intros k Hk. apply scal_unseen. apply Hv.
    - destruct HP as (HL & HM). apply (KEY _ HM). intros k Hk. apply scal_unseen. apply Hv.
    - destruct HP as (t & HE & HY & HT & HM). apply (KEY _ HM). intros k Hk. apply scal_unseen. apply cent_unseen.
    - (* RLS *) destruct HP as (HL & P & H0 & HS & HM).
      assert (VP : forall k, (k <= N)%nat -> exists s, forall j, (j < n)%nat -> sumn n (fun i => P k i j * v i) = s * v j).
      { induction k as [|k IH]; intros Hk.
        - exists (/ par (kw_eps kw) (1 / 1000)). intros j Hj. rewrite (sumn_ext n _ (fun i => (if Nat.eqb j i then 1 else 0) * (/ par (kw_eps kw) (1 / 1000) * v i))).
          + apply (sumn_delta n j (fun i => / par (kw_eps kw) (1 / 1000) * v i)). exact Hj.
          + intros i Hi. rewrite H0 by assumption. unfold delta. rewrite (Nat.eqb_sym i j). ring.
        - destruct (IH ltac:(lia)) as (s & Hs). exists (/ rate KRLS kw * s). intros j Hj.
          rewrite (sumn_ext n _ (fun i => / rate KRLS kw * (P k i j * v i) + - (/ rate KRLS kw * (sumn n (fun a => x k a * P k a j) / (rate KRLS kw + sumn n (fun a => x k a * sumn n (fun b => P k a b * x k b))))) * (sumn n (fun a => P k i a * x k a) * v i))).
          + rewrite sumn_plus, !sumn_scal, Hs by exact Hj.
            assert (E : sumn n (fun i => sumn n (fun a => P k i a * x k a) * v i) = 0).
            { rewrite (sumn_ext n _ (fun i => sumn n (fun a => x k a * (P k i a * v i)))) by (intros i Hi; rewrite <- sumn_scal_r; apply sumn_ext; intros; ring).
              rewrite sumn_swap. rewrite (sumn_ext n _ (fun a => s * (x k a * v a))); [rewrite sumn_scal; pose proof (Hv k) as E; unfold dotn in E; rewrite E; ring|].
              intros a Ha. rewrite sumn_scal, Hs by exact Ha. ring. }
            rewrite E. ring.
          + intros i Hi. rewrite HS by (assumption || lia). unfold Rdiv. ring. }
      apply (KEY _ HM). intros k Hk. destruct (VP (S k) ltac:(lia)) as (s & Hs). unfold dotn.
      rewrite (sumn_ext n _ (fun i => e k * sumn n (fun a => x k a * (P (S k) i a * v i)))).
      + rewrite sumn_scal, sumn_swap. rewrite (sumn_ext n _ (fun a => s * (x k a * v a))); [rewrite sumn_scal; pose proof (Hv k) as E; unfold dotn in E; rewrite E; ring|].
        intros a Ha. rewrite sumn_scal, Hs by exact Ha. ring.
      + intros i Hi. rewrite Rmult_assoc, <- sumn_scal_r, <- sumn_scal. apply sumn_ext. intros; ring.
    - destruct HP as (HL & m & phi & H0 & F0 & HF & HS & HM). apply (KEY _ HM). intros k Hk. apply scal_unseen. apply Hv.
    - destruct HP as (HL & m & phi & H0 & F0 & HF & HS & HM). apply (KEY _ HM). intros k Hk. apply scal_unseen. apply Hv.
    - destruct HP as (HL & m & H0 & HS & HM). apply (KEY _ HM). intros k Hk. apply scal_unseen. apply Hv.
  Qed.
End Unseen.

Section Program.
  Variable solve : list rvec -> list rvec -> option (list rvec).
  #[local] Hint Extern 0 (Num R) => exact (RNum solve) : typeclass_instances.
  Notation obj := (obj R).

  Lemma unseen_dot n (v : rvec) (x : rmat) : length v = n -> rows_of n x -> unseen v x ->
    forall k, dotn n ((fun k i => nth i (nth k x []) 0) k) (fun i => nth i v 0) = 0.
  Proof.
    intros Hl Hx Hu k. cbv beta. destruct (Nat.lt_ge_cases k (length x)) as [H|H].
    - unfold dotn. rewrite <- (Rdot_sumn n (nth k x []) v) by (auto; apply nth_rows; auto). unfold unseen in Hu. rewrite Forall_forall in Hu. apply Hu. apply nth_In. exact H.
    - apply dotn_zero_l. intros i _. rewrite (nth_overflow x) by exact H. destruct i; reflexivity.
  Qed.

  Theorem C113_never_learned : forall rng c (kw : kwargs R) n (o o' : obj) d x y e w v k,
    rng_ok rng -> sane_kw kw -> kw_n kw = Some (Z.of_nat n) -> new_filter rng c kw = Ok o ->
    (c = KAP -> good_solver solve) -> (c = KOCNLMS -> kw_mem kw <> Some 1%nat) -> sign_sign c = false ->
    rows_of n x -> run d x o = (o', Ok (y, e, w)) -> length v = n -> unseen v x -> (k <= length x)%nat ->
    Rdot (nth k (w ++ [o_w o']) []) v = Rdot (o_w o) v.
  Proof.
    intros rng c kw n o o' d x y e w v k Hrng Hkw Hn Ho Hap Hoc Hc Hx HR Hl Hu Hk.
    pose proof (new_filter_wf rng c kw n o Hrng Hkw Hn Ho) as Hwf.
    destruct (C65_run_follows_the_recursion solve rng c kw n o o' d x y e w Hrng Hkw Hn Ho Hap Hoc Hx HR) as (W0 & P).
    pose proof (unseen_fixed n (length x) _ _ _ _ _ _ (unseen_dot n v x Hl Hx Hu) c kw P Hc k Hk) as E. cbv beta in E.
    rewrite W0 in E. rewrite (Rdot_sumn n), (Rdot_sumn n (o_w o) v); [exact E|apply Hwf|exact Hl| |exact Hl].
    apply (rows_len solve n o o' d x y e w k Hwf Hx HR Hk).
  Qed.

  Lemma from_weights_w rng c w0 (kw : kwargs R) (o : obj) : new_filter rng c (from_weights w0 kw) = Ok o -> o_w o = w0.
  Proof.
    unfold new_filter. destruct (kw_other _); [discriminate|]. destruct (existsb _ _); [discriminate|]. cbn [from_weights kw_n kw_w opt].
    destruct (kw_n kw) as [z|]; [|discriminate]. destruct (match kw_mu _ with Some _ => _ | None => _ end) as [mu|]; [|discriminate].
    unfold init_base. destruct (_ =? -1)%Z; [discriminate|]. cbn [init_weights]. destruct (_ =? _)%Z; [|discriminate]. cbn [rbind rmap].
    destruct (init_ext _ _ _ _) as [x1|]; [|discriminate]. intros [= <-]. reflexivity.
  Qed.
  Lemma published_weights c w0 kw n N d x y e W : published c (from_weights w0 kw) n N d x y e W <-> published c kw n N d x y e W.
  Proof. destruct c; split; intros H; exact H. Qed.

  Theorem C113_no_influence : forall rng c (kw : kwargs R) n (w0 v : rvec) (o1 o2 o1' o2' : obj) d x y e w y' e' w',
    rng_ok rng -> sane_kw kw -> kw_n kw = Some (Z.of_nat n) -> length v = n ->
    new_filter rng c (from_weights w0 kw) = Ok o1 -> new_filter rng c (from_weights (vadd w0 v) kw) = Ok o2 ->
    (c = KAP -> good_solver solve) -> (c = KOCNLMS -> kw_mem kw <> Some 1%nat) ->
    rows_of n x -> unseen v x ->
    run d x o1 = (o1', Ok (y, e, w)) -> run d x o2 = (o2', Ok (y', e', w')) ->
    y' = y /\ e' = e /\ w' = map (fun row => vadd row v) w /\ o_w o2' = vadd (o_w o1') v.
  Proof.
    intros rng c kw n w0 v o1 o2 o1' o2' d x y e w y' e' w' Hrng Hkw Hn Hl Ho1 Ho2 Hap Hoc Hx Hu HR HR'.
    pose proof (from_weights_w _ _ _ _ _ Ho1) as E1. pose proof (from_weights_w _ _ _ _ _ Ho2) as E2.
    pose proof (new_filter_wf rng c _ n o1 Hrng (Hkw : sane_kw (from_weights w0 kw)) Hn Ho1) as Hwf1.
    pose proof (new_filter_wf rng c _ n o2 Hrng (Hkw : sane_kw (from_weights (vadd w0 v) kw)) Hn Ho2) as Hwf2.
    destruct (C65_run_follows_the_recursion solve rng c _ n o1 o1' d x y e w Hrng (Hkw : sane_kw (from_weights w0 kw)) Hn Ho1 Hap Hoc Hx HR) as (W0 & P).
    destruct (C65_run_follows_the_recursion solve rng c _ n o2 o2' d x y' e' w' Hrng (Hkw : sane_kw (from_weights (vadd w0 v) kw)) Hn Ho2 Hap Hoc Hx HR') as (W0' & P').
    apply published_weights in P. apply published_weights in P'.
    apply (unseen_shift n (length x) _ _ _ _ _ _ (unseen_dot n v x Hl Hx Hu)) in P. cbv beta in P.
    assert (Lw0 : length w0 = n) by (rewrite <- E1; apply Hwf1).
    destruct (C65_recursion_determines c kw n (length x) _ _ _ _ _ _ _ _ P' P) as (T1 & T2).
    { intros i Hi. rewrite W0, W0', E1, E2. apply nth_vadd; congruence. }
    destruct (run_lengths solve n o1 o1' _ _ y e w Hwf1 Hx HR) as (_ & _ & Ly & Le & Lw & _).
    destruct (run_lengths solve n o2 o2' _ _ y' e' w' Hwf2 Hx HR') as (_ & _ & Ly' & Le' & Lw' & _).
    assert (RW : forall k, (k <= length x)%nat -> nth k (w' ++ [o_w o2']) [] = vadd (nth k (w ++ [o_w o1']) []) v).
    { intros k Hk. pose proof (rows_len solve n o1 o1' d x y e w k Hwf1 Hx HR Hk) as L1. pose proof (rows_len solve n o2 o2' d x y' e' w' k Hwf2 Hx HR' Hk) as L2.
      apply (nth_ext _ _ 0 0); [rewrite L2; symmetry; apply map2_length_eq; congruence|]. intros i Hi. rewrite L2 in Hi. rewrite nth_vadd by congruence. apply T2; assumption. }
    split; [|split; [|split]].
    - apply (nth_ext _ _ 0 0); [congruence|]. intros k Hk. apply T1. lia.
    - apply (nth_ext _ _ 0 0); [congruence|]. intros k Hk. apply T1. lia.
    - apply (nth_ext _ _ [] []); [rewrite map_length; congruence|]. intros k Hk. rewrite Lw' in Hk. rewrite (map_nth_lt _ _ _ []) by lia.
      pose proof (RW k ltac:(lia)) as E. rewrite !app_nth1 in E by lia. exact E.
    - pose proof (RW (length x) (le_n _)) as E. rewrite app_nth2 in E by lia. rewrite app_nth2 in E by lia. rewrite Lw, Lw', !Nat.sub_diag in E. exact E.
  Qed.

  (** two inputs that always have the same value *)
  Theorem C113_twins : forall rng c (kw : kwargs R) n (o o' : obj) d x y e w i j k,
    rng_ok rng -> sane_kw kw -> kw_n kw = Some (Z.of_nat n) -> new_filter rng c kw = Ok o ->
    (c = KAP -> good_solver solve) -> (c = KOCNLMS -> kw_mem kw <> Some 1%nat) ->
    rows_of n x -> run d x o = (o', Ok (y, e, w)) -> (i < n)%nat -> (j < n)%nat ->
    Forall (fun row => nth i row 0 = nth j row 0) x -> (k <= length x)%nat ->
    let row := nth k (w ++ [o_w o']) [] in nth i row 0 - nth j row 0 = nth i (o_w o) 0 - nth j (o_w o) 0.
  Proof.
    intros rng c kw n o o' d x y e w i j k Hrng Hkw Hn Ho Hap Hoc Hx HR Hi Hj Hu Hk row. subst row.
    destruct (C65_run_follows_the_recursion solve rng c kw n o o' d x y e w Hrng Hkw Hn Ho Hap Hoc Hx HR) as (W0 & P).
    assert (XE : forall k, nth i (nth k x []) 0 = nth j (nth k x []) 0).
    { intros m. destruct (Nat.lt_ge_cases m (length x)) as [H|H].
      - rewrite Forall_forall in Hu. apply Hu. apply nth_In. exact H.
      - rewrite (nth_overflow x) by exact H. destruct i, j; reflexivity. }
    destruct (sign_sign c) eqn:Hc.
    - assert (ST : forall k, (k < length x)%nat -> nth i (nth (S k) (w ++ [o_w o']) []) 0 - nth j (nth (S k) (w ++ [o_w o']) []) 0 = nth i (nth k (w ++ [o_w o']) []) 0 - nth j (nth k (w ++ [o_w o']) []) 0).
      { intros m Hm. unfold published in P. cbv zeta in P. destruct c; try discriminate; destruct P as (_ & HM); rewrite !HM by assumption; rewrite XE; ring. }
      induction k as [|k IH]; [rewrite W0; reflexivity|]. rewrite ST by lia. apply IH. lia.
    - assert (DD : forall f : nat -> R, dotn n f (fun l => delta i l - delta j l) = f i - f j).
      { intros f. unfold dotn. rewrite (sumn_ext n _ (fun l => (if Nat.eqb i l then 1 else 0) * f l - (if Nat.eqb j l then 1 else 0) * f l)) by (intros; unfold delta; ring).
        rewrite sumn_minus, !sumn_delta by assumption. reflexivity. }
      assert (Hv : forall m, dotn n ((fun k i => nth i (nth k x []) 0) m) (fun l => delta i l - delta j l) = 0) by (intros m; rewrite DD, XE; ring).
      pose proof (unseen_fixed n (length x) _ _ _ _ _ _ Hv c kw P Hc k Hk) as E.
      cbv beta in E. rewrite !DD in E. rewrite W0 in E. exact E.
  Qed.
End Program.

(** ** The hypotheses can be met, for every class *)
Section Ok.
  #[local] Hint Extern 0 (Num R) => exact (RNum rsolve) : typeclass_instances.
  Notation obj := (obj R).
  Example C113_hypotheses : forall c, let x : rmat := [[1; 1]; [3; 3]] in let v : rvec := [2; -2] in
    rng_ok (T := R) zrng /\ sane_kw (rec_kw c) /\ good_solver rsolve /\ unseen v x /\ Forall (fun row => nth 0 row 0 = nth 1 row 0) x /\
    exists (o1 o2 o1' o2' : obj) y e w y' e' w', new_filter zrng c (from_weights [1; 1] (rec_kw c)) = Ok o1 /\ new_filter zrng c (from_weights (vadd [1; 1] v) (rec_kw c)) = Ok o2 /\
      run [1; 2] x o1 = (o1', Ok (y, e, w)) /\ run [1; 2] x o2 = (o2', Ok (y', e', w')).
  Proof.
    intros c x v.
    assert (Ho : forall w0 : rvec, length w0 = 2%nat -> exists o : obj, new_filter zrng c (from_weights w0 (rec_kw c)) = Ok o).
    { intros [|a [|b [|]]] Hl; try discriminate. destruct c; try (eexists; reflexivity). unfold new_filter. cbn [from_weights rec_kw kw_other existsb all_params kw_given accepts andb negb orb given kw_n kw_mu kw_w opt].
      cbn. destruct (Reqb _ _) eqn:E; [|eexists; reflexivity]. exfalso. revert E. unfold Reqb. destruct (Req_EM_T _ _) as [E|]; [|discriminate].
      intros _. revert E. unfold Q2R. cbn. lra. }
    destruct (Ho [1; 1] eq_refl) as (o1 & Ho1). destruct (Ho (vadd [1; 1] v) eq_refl) as (o2 & Ho2).
    destruct (wide_runs c (from_weights [1; 1] (rec_kw c)) o1 2 [1; 2] x) as (Hs & o1' & y & e & w & E); auto; [repeat constructor|discriminate|].
    destruct (wide_runs c (from_weights (vadd [1; 1] v) (rec_kw c)) o2 2 [1; 2] x) as (_ & o2' & y' & e' & w' & E'); auto; [repeat constructor|discriminate|].
    split; [intros k; apply repeat_length|]. split; [exact Hs|]. split; [exact rsolve_good|].
    split; [unfold unseen, x, v; repeat constructor; cbn; lra|]. split; [repeat constructor|].
    exists o1, o2, o1', o2', y, e, w, y', e', w'. auto.
  Qed.
End Ok.

(** ** The sign-sign classes do move along directions they never saw *)
Section Refuted.
  Local Open Scope Q_scope.
  #[local] Instance Qu : Num Q := QNum (fun _ _ => None).
  Theorem C113_sign_sign_refuted : forall c, sign_sign c = true ->
    exists (o o' : obj Q) d x r v, new_filter rng0 c (kwq 2 1 [0; 0] None None) = Ok o /\ rows_of 2 x /\ run d x o = (o', Ok r) /\
      Forall (fun row => ndot row v == 0) x /\ ~ ndot (o_w o') v == ndot (o_w o) v.
  Proof.
    intros c Hc. exists (get_ok obj0 (new_filter rng0 c (kwq 2 1 [0; 0] None None))).
    assert (HX : rows_of 2 [[1; 2]]) by (constructor; [reflexivity|constructor]).
    assert (HV : Forall (fun row => ndot row [2; -(1)] == 0) [[1; 2]]) by (constructor; [vm_compute; reflexivity|constructor]).
    destruct c; try discriminate; eexists _, [1], [[1; 2]], _, [2; -(1)]; (split; [vm_compute; reflexivity|]); (split; [exact HX|]); (split; [vm_compute; reflexivity|]);
      (split; [exact HV|vm_compute; discriminate]).
  Qed.
End Refuted.
