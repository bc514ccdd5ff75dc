(** C56: NLMS with unit step (exact real arithmetic). *)
From Coq Require Import Reals Lra Psatz.
From Verif Require Import Py Num Numpy Filters Registry Spec StructProofs RunProofs Reach RVec RFilter PropsStability PropsNoise.
Open Scope R_scope.

(** ** Specification *)
(** no two different rows overlap *)
Definition orthogonal_rows (x : list rvec) : Prop :=
  forall i j, (i < length x)%nat -> (j < length x)%nat -> i <> j -> Rdot (nth i x []) (nth j x []) = 0.
(** the linear combination sum_i c_i x_i of the rows *)
Fixpoint combine_rows (n : nat) (c : rvec) (x : list rvec) : rvec :=
  match c, x with
  | a :: c', r :: x' => vadd (vsc a r) (combine_rows n c' x')
  | _, _ => repeat 0 n
  end.

Lemma combine_rows_length n x : rowsl n x -> forall c, length (combine_rows n c x) = n.
Proof.
  induction x as [|r x IH]; intros Hx [|a c]; try apply repeat_length. cbn [combine_rows].
  apply vadd_length; [rewrite vsc_length; exact (Forall_inv Hx)|apply IH; exact (Forall_inv_tail Hx)].
Qed.
Lemma dot_combine n u v x : length u = n -> length v = n -> rowsl n x -> (forall r, In r x -> Rdot u r = Rdot v r) ->
  forall c, Rdot u (combine_rows n c x) = Rdot v (combine_rows n c x).
Proof.
  intros Hu Hv. induction x as [|r x IH]; intros Hx H [|a c]; try (cbn [combine_rows]; rewrite !Rdot_zero_r; reflexivity).
  cbn [combine_rows]. pose proof (Forall_inv Hx) as Hr. pose proof (combine_rows_length n x (Forall_inv_tail Hx) c) as Hc. cbv beta in Hr.
  rewrite !Rdot_vadd_r by (rewrite ?vsc_length; congruence). rewrite !Rdot_vsc_r, (H r (or_introl eq_refl)).
  rewrite (IH (Forall_inv_tail Hx) (fun s Hs => H s (or_intror Hs)) c). reflexivity.
Qed.

Section S.
  Variable solve : list rvec -> list rvec -> option (list rvec).
  #[local] Hint Extern 0 (Num R) => exact (RNum solve) : typeclass_instances.
  Notation obj := (obj R).

  (** With mu = 1 the new weights are the unique minimiser of eps |v - w|^2 + (d - v.x)^2: the best compromise between
      explaining the sample and staying where one is. *)
  Theorem C56_NLMS_minimal_disturbance : forall n (o o' : obj) d x eps v,
    reachable n o -> o_ext o = XNLMS eps -> o_mu o = 1 -> 0 < eps -> length x = n -> length v = n ->
    adapt d x o = (o', Ok tt) -> v <> o_w o' ->
    eps * distsq (o_w o') (o_w o) + (d - Rdot (o_w o') x) ^ 2 < eps * distsq v (o_w o) + (d - Rdot v x) ^ 2.
  Proof.
    intros n o o' d x eps v Hr Ex Hmu Heps Hx Hv HA Hne. apply reachable_wf in Hr. destruct Hr as (Lw & _).
    rewrite (adapt_textbook solve o d x (vsc (1 / (eps + normsq x) * (d - Rdot (o_w o) x)) x)) in HA by (rewrite ?Ex, ?Hmu; auto; congruence).
    injection HA as <-. cbn [set_w o_w] in *. set (w := o_w o) in *. set (e := d - Rdot w x) in *.
    pose proof (normsq_nonneg x) as Hs. set (s := normsq x) in *. set (g := 1 / (eps + s) * e) in *.
    set (w' := vadd w (vsc g x)) in *.
    assert (Lw' : length w' = n) by (apply vadd_length; [exact Lw|rewrite vsc_length; exact Hx]).
    (* v = w' + h *)
    set (h := vsub v w'). assert (Lh : length h = n) by (apply vsub_length; auto).
    assert (Hh : 0 < normsq h).
    { destruct (normsq_nonneg h) as [H|H]; [exact H|]. exfalso. apply Hne. apply distsq_zero; [congruence|]. symmetry; exact H. }
    assert (E1 : vsub w' w = vsc g x).
    { apply nth_ext0; [rewrite (vsub_length _ _ n), vsc_length; auto|]. intros i Hi. rewrite nth_vsub by congruence. unfold w'.
      rewrite nth_vadd by (rewrite vsc_length; congruence). ring. }
    assert (E2 : vsub v w = vadd h (vsc g x)).
    { apply nth_ext0; [rewrite (vsub_length _ _ n), (vadd_length _ _ n); auto; rewrite vsc_length; auto|]. intros i Hi.
      rewrite nth_vsub by congruence. rewrite nth_vadd by (rewrite vsc_length; congruence). unfold h. rewrite nth_vsub by congruence.
      rewrite <- E1, nth_vsub by congruence. ring. }
    assert (E3 : Rdot v x = Rdot w' x + Rdot h x).
    { unfold h. rewrite Rdot_vsub_l by congruence. ring. }
    unfold distsq. rewrite E1, E2, E3, normsq_vadd by (rewrite vsc_length; congruence). rewrite !normsq_vsc, Rdot_vsc_r. fold s.
    assert (E4 : d - Rdot w' x = eps * g).
    { unfold w'. rewrite error_step by congruence. fold e s. unfold g. field. lra. }
    set (p := Rdot h x). replace (d - (Rdot w' x + p)) with ((d - Rdot w' x) - p) by ring. rewrite E4.
    pose proof (pow2_ge_0 p). assert (0 < eps * normsq h) by (apply Rmult_lt_0_compat; lra). nra.
  Qed.

  (** With eps = 0 the sample is explained exactly, and no other weights that do so are closer to the old ones. *)
  Theorem C56_NLMS_projection : forall n (o o' : obj) d x v,
    reachable n o -> o_ext o = XNLMS 0 -> o_mu o = 1 -> length x = n -> normsq x <> 0 -> length v = n ->
    adapt d x o = (o', Ok tt) ->
    Rdot (o_w o') x = d /\ (Rdot v x = d -> distsq (o_w o') (o_w o) <= distsq v (o_w o)).
  Proof.
    intros n o o' d x v Hr Ex Hmu Hx Hs0 Hv HA. apply reachable_wf in Hr. destruct Hr as (Lw & _).
    rewrite (adapt_textbook solve o d x (vsc (1 / (0 + normsq x) * (d - Rdot (o_w o) x)) x)) in HA by (rewrite ?Ex, ?Hmu; auto; congruence).
    injection HA as <-. cbn [set_w o_w]. set (w := o_w o) in *. set (e := d - Rdot w x) in *. set (g := 1 / (0 + normsq x) * e).
    assert (E4 : d - Rdot (vadd w (vsc g x)) x = 0).
    { rewrite error_step by congruence. fold e. unfold g. field. exact Hs0. }
    split; [lra|]. intros Hvd. set (w' := vadd w (vsc g x)) in *.
    assert (Lw' : length w' = n) by (apply vadd_length; [exact Lw|rewrite vsc_length; exact Hx]).
    set (h := vsub v w'). assert (Lh : length h = n) by (apply vsub_length; auto).
    assert (E1 : vsub w' w = vsc g x).
    { apply nth_ext0; [rewrite (vsub_length _ _ n), vsc_length; auto|]. intros i Hi. rewrite nth_vsub by congruence. unfold w'.
      rewrite nth_vadd by (rewrite vsc_length; congruence). ring. }
    assert (E2 : vsub v w = vadd h (vsc g x)).
    { apply nth_ext0; [rewrite (vsub_length _ _ n), (vadd_length _ _ n); auto; rewrite vsc_length; auto|]. intros i Hi.
      rewrite nth_vsub by congruence. rewrite nth_vadd by (rewrite vsc_length; congruence). unfold h. rewrite nth_vsub by congruence.
      rewrite <- E1, nth_vsub by congruence. ring. }
    assert (E3 : Rdot h x = 0). { unfold h. rewrite Rdot_vsub_l by congruence. lra. }
    unfold distsq. rewrite E1, E2, normsq_vadd by (rewrite vsc_length; congruence). rewrite Rdot_vsc_r, E3.
    pose proof (normsq_nonneg h). lra.
  Qed.

  (** On mutually orthogonal inputs nothing learned is ever forgotten: after the run every sample is explained exactly,
      whatever the targets; so a linear system is known on the whole span of the inputs. *)
  Theorem C56_NLMS_orthogonal : forall n (o o' : obj) d x y e w,
    reachable n o -> o_ext o = XNLMS 0 -> o_mu o = 1 -> rows_of n x -> orthogonal_rows x ->
    (forall i, (i < length x)%nat -> normsq (nth i x []) <> 0) -> run d x o = (o', Ok (y, e, w)) ->
    (forall i, (i < length x)%nat -> Rdot (o_w o') (nth i x []) = nth i d 0) /\
    (forall ws, length ws = n -> noise_free ws d x -> forall c, Rdot (o_w o') (combine_rows n c x) = Rdot ws (combine_rows n c x)).
  Proof.
    intros n o o' d x y e w Hr Ex Hmu Hx Ho Hs0 HR. apply reachable_wf in Hr.
    assert (Ht : forall e v, textbook (o_ext o) (o_mu o) e v <> None) by (intros; rewrite Ex; discriminate).
    assert (Hl : length d = length x).
    { destruct (Nat.eq_dec (length d) (length x)) as [|Hne]; auto. rewrite run_bad_length in HR by assumption; discriminate. }
    assert (Hne : x <> []) by (intros ->; destruct d; discriminate).
    assert (Hlw : length w = length x).
    { destruct (run_eq n o d x Hr Hx Hl Hne) as (h & E' & _). rewrite HR in E'. destruct (snd (adapt_all d x o)); [|discriminate].
      simpl in E'. injection E' as _ _ _ ->. apply wtrace_length; auto. }
    assert (HwN : wrow w (o_w o') (length x) = o_w o') by (unfold wrow; rewrite app_nth2, Hlw, Nat.sub_diag by lia; reflexivity).
    assert (Hk : forall k, (k <= length x)%nat -> forall i, (i < k)%nat -> Rdot (wrow w (o_w o') k) (nth i x []) = nth i d 0).
    { induction k as [|k IH]; intros Hkx i Hi; [lia|]. specialize (IH ltac:(lia)).
      destruct (run_textbook solve n o o' d x y e w k Hr Hx Ht HR ltac:(lia)) as (dw & Htb & Hrow & Hy & He & Hl1 & Hl2).
      rewrite Ex in Htb; cbn [textbook] in Htb. injection Htb as <-. rewrite Hrow, Hmu.
      assert (Hli : length (nth i x []) = n). { unfold rows_of in Hx. rewrite Forall_forall in Hx. apply Hx, nth_In. lia. }
      rewrite Rdot_vadd_l, Rdot_vsc_l by (rewrite ?vsc_length; congruence).
      destruct (Nat.eq_dec i k) as [->|Hik].
      - rewrite <- Hy. fold (normsq (nth k x [])). rewrite He. field. apply Hs0; lia.
      - rewrite IH by lia. rewrite (Ho k i) by lia. ring. }
    specialize (Hk (length x) (le_n _)). rewrite HwN in Hk. split; [exact Hk|].
    intros ws Hws Hnf c. apply dot_combine; auto.
    - destruct (run_textbook solve n o o' d x y e w (length x - 1) Hr Hx Ht HR) as (dw & Htb & Hrow & _ & _ & Hl1 & Hl2); [destruct x; [congruence|simpl; lia]|].
      replace (S (length x - 1)) with (length x) in Hrow by (destruct x; [congruence|simpl; lia]). rewrite <- HwN, Hrow.
      rewrite Ex in Htb; cbn [textbook] in Htb. injection Htb as <-. apply vadd_length; [exact Hl1|rewrite vsc_length; exact Hl2].
    - intros r Hin. apply (In_nth _ _ []) in Hin as (i & Hi & <-). rewrite Hk, Hnf by exact Hi. reflexivity.
  Qed.

  Example C56_hypotheses : exists (o o' : obj) y e w, reachable 2 o /\ o_ext o = XNLMS 0 /\ o_mu o = 1 /\
    let x := [[1; 2]; [2; -1]] in rows_of 2 x /\ orthogonal_rows x /\ (forall i, (i < length x)%nat -> normsq (nth i x []) <> 0) /\
    run [5; 7] x o = (o', Ok (y, e, w)).
  Proof.
    assert (Hr : reachable 2 (fresh2 1 (XNLMS 0))) by (apply (fresh2_reachable solve 1 (Some 0) None None KNLMS); reflexivity).
    assert (Hx : rows_of 2 [[1; 2]; [2; -1]]) by (repeat constructor).
    destruct (run_exists solve 2 _ [5; 7] _ Hr Hx eq_refl) as (o' & y & e & w & E); [discriminate|intros ex H; exact H|].
    exists (fresh2 1 (XNLMS 0)), o', y, e, w. split; [exact Hr|]. split; [reflexivity|]. split; [reflexivity|]. cbv zeta.
    split; [exact Hx|]. split; [|split; [|exact E]].
    - intros [|[|i]] [|[|j]] Hi Hj Hij; simpl in *; try lia; lra.
    - intros [|[|i]] Hi; unfold normsq; simpl in *; try lia; lra.
  Qed.
End S.
