(** C116: how strongly the answers of a perceptron depend on its inputs, and that training depends continuously on everything. *)
From Coq Require Import Reals Lra Psatz QArith Permutation.
From Verif Require Import Py Num Numpy StructProofs Spec RVec RMat Mlp PropsMLP PropsMLPR PropsBackprop PropsMLPSym PropsContinuity PropsMLPUnseen.
Open Scope R_scope.

(** ** Specification *)
(** the steepest slope of the activation *)
Definition steepest (f : actf) : R := match f with Sigmoid => 1 / 4 | Tanh => 1 end.
(** product of the gains of the first Q layers *)
Fixpoint gains (g : R) (rho : nat -> R) (Q : nat) : R := match Q with O => 1 | S q => gains g rho q * (g * rho q) end.

(** ** The activations are Lipschitz *)
Lemma lip (h dh : R -> R) (L : R) : (forall z, derivable_pt_lim h z (dh z)) -> (forall z, Rabs (dh z) <= L) ->
  forall a b, Rabs (h a - h b) <= L * Rabs (a - b).
Proof.
  intros Hd HL. assert (G : forall a b, a < b -> Rabs (h b - h a) <= L * Rabs (b - a)).
  { intros a b Hab. destruct (MVT_cor2 h dh a b Hab) as (c & Hc & _); [intros; apply Hd|]. rewrite Hc, Rabs_mult. apply Rmult_le_compat_r; [apply Rabs_pos|apply HL]. }
  intros a b. destruct (Rtotal_order a b) as [H|[->|H]].
  - rewrite Rabs_minus_sym, (Rabs_minus_sym a). apply G, H.
  - rewrite !Rminus_diag_eq, Rabs_R0 by reflexivity. lra.
  - apply G, H.
Qed.
Lemma squash_lip f a b : Rabs (squash f a - squash f b) <= steepest f * Rabs (a - b).
Proof.
  set (solve := fun _ _ : list rvec => None : option (list rvec)).
  rewrite <- !(squash_act solve). apply (lip _ (fun z => @act_der R (RNum solve) f (@act R (RNum solve) f z))); [intros z; apply C45_derivative|].
  intros z. rewrite (slope_act solve). destruct f; cbn [slope steepest].
  - pose proof (C45_sigmoid_range solve z) as H. set (y := @act R (RNum solve) Sigmoid z) in *. clearbody y.
    rewrite Rabs_pos_eq by (apply Rmult_le_pos; lra). pose proof (Rle_0_sqr (y - 1 / 2)) as S. unfold Rsqr in S. lra.
  - pose proof (C45_tanh_range solve z) as H. set (y := @act R (RNum solve) Tanh z) in *. clearbody y.
    assert (0 <= (1 - y) * (1 + y)) by (apply Rmult_le_pos; lra). rewrite Rabs_pos_eq by lra. pose proof (Rle_0_sqr y) as S. unfold Rsqr in S. lra.
Qed.
Lemma squash_cont f a : continuity_pt (squash f) a.
Proof.
  set (solve := fun _ _ : list rvec => None : option (list rvec)). apply derivable_continuous_pt.
  exists (@act_der R (RNum solve) f (@act R (RNum solve) f a)). eapply derivable_pt_lim_ext; [intros t; apply (squash_act solve)|]. apply C45_derivative.
Qed.
Lemma steepest_pos f : 0 <= steepest f.
Proof. destruct f; cbn; lra. Qed.
Lemma sumn_diff_bound m (w a b : nat -> R) t : (forall j, (j < m)%nat -> Rabs (a j - b j) <= t) ->
  Rabs (sumn m (fun j => w j * a j) - sumn m (fun j => w j * b j)) <= sumn m (fun j => Rabs (w j)) * t.
Proof.
  induction m as [|m IH]; intros H; cbn [sumn]; [rewrite Rminus_0_r, Rabs_R0; lra|].
  replace (_ + w m * a m - _) with ((sumn m (fun j => w j * a j) - sumn m (fun j => w j * b j)) + w m * (a m - b m)) by ring.
  eapply Rle_trans; [apply Rabs_triang|]. rewrite Rmult_plus_distr_r. apply Rplus_le_compat; [apply IH; intros; apply H; lia|].
  rewrite Rabs_mult. apply Rmult_le_compat_l; [apply Rabs_pos|apply H; lia].
Qed.
Lemma gains_pos g rho Q : 0 <= g -> (forall q, (q < Q)%nat -> 0 <= rho q) -> 0 <= gains g rho Q.
Proof. intros Hg. induction Q as [|Q IH]; intros H; cbn [gains]; [lra|]. apply Rmult_le_pos; [apply IH; intros; apply H; lia|apply Rmult_le_pos; [exact Hg|apply H; lia]]. Qed.
Lemma activity_lip f wd W xa xb rho t Q :
  (forall q, (q < Q)%nat -> 0 <= rho q) -> (forall q r, (q < Q)%nat -> (r < wd (S q))%nat -> sumn (wd q) (fun j => Rabs (W q r (S j))) <= rho q) ->
  0 <= t -> (forall j, (j < wd 0%nat)%nat -> Rabs (xa j - xb j) <= t) ->
  forall q, (q <= Q)%nat -> forall r, (r < wd q)%nat -> Rabs (activity f wd W xa q r - activity f wd W xb q r) <= gains (steepest f) rho q * t.
Proof.
  intros Hp Hrho Ht Hx. induction q as [|q IH]; intros Hq r Hr; [cbn [activity gains]; rewrite Rmult_1_l; apply Hx, Hr|].
  cbn [activity gains]. eapply Rle_trans; [apply squash_lip|].
  match goal with |- context [Rabs (?w + ?s - (?w + ?s'))] => replace (w + s - (w + s')) with (s - s') by ring end.
  assert (G : 0 <= gains (steepest f) rho q) by (apply gains_pos; [apply steepest_pos|intros; apply Hp; lia]).
  pose proof (sumn_diff_bound (wd q) (fun j => W q r (S j)) _ _ _ (IH ltac:(lia))) as H.
  replace (gains (steepest f) rho q * (steepest f * rho q) * t) with (steepest f * (rho q * (gains (steepest f) rho q * t))) by ring.
  apply Rmult_le_compat_l; [apply steepest_pos|]. eapply Rle_trans; [exact H|]. apply Rmult_le_compat_r; [apply Rmult_le_pos; assumption|]. apply Hrho; auto; lia.
Qed.

(** ** One learning step is continuous *)
Section OneStep.
  Variables (f : actf) (wd : nat -> nat) (Q o : nat).
  Hypothesis HQ : (0 < Q)%nat.
  (** everything that takes part in a step, with the deltas *)
  Record step_data := mkStep { s_rate : nat -> R; s_ro : R; s_x : nat -> R; s_d : nat -> R; s_W : nat -> nat -> nat -> R; s_V : nat -> nat -> R;
    s_W' : nat -> nat -> nat -> R; s_V' : nat -> nat -> R; s_e : nat -> R; s_D : nat -> nat -> R }.
  Definition is_step (p : step_data) : Prop :=
    let a := activity f wd (s_W p) (s_x p) in
    (forall r, (r < o)%nat -> s_e p r = s_d p r - response (wd Q) (s_V p) (a Q) r) /\
    (forall r c, (r < o)%nat -> (c <= wd Q)%nat -> s_V' p r c = s_V p r c + s_ro p * s_e p r * lead (a Q) c) /\
    (forall q r c, (q < Q)%nat -> (r < wd (S q))%nat -> (c <= wd q)%nat -> s_W' p q r c = s_W p q r c + s_rate p q * s_D p q r * lead (a q) c) /\
    (forall r, (r < wd Q)%nat -> s_D p (Q - 1)%nat r = slope f (a Q r) * (if Nat.eqb o 1 then s_e p 0%nat * s_V p 0%nat (S r)
                            else (1 - a Q r) * sumn o (fun i => s_e p i * s_V p i (S r)))) /\
    (forall q r, (S q < Q)%nat -> (r < wd (S q))%nat -> s_D p q r =
         slope f (a (S q) r) * (1 - a (S q) r) * sumn (wd (S (S q))) (fun i => s_D p (S q) i * s_W' p (S q) i (S r))).
  Lemma step_is rate ro x d W V W' V' e : learning_step f wd Q o rate ro x d W V W' V' e -> exists D, is_step (mkStep rate ro x d W V W' V' e D).
  Proof. intros (D & H). exists D. exact H. Qed.
  Definition near_input (del : R) (p p0 : step_data) : Prop :=
    (forall q, (q < Q)%nat -> near del (s_rate p q) (s_rate p0 q)) /\ near del (s_ro p) (s_ro p0) /\
    (forall j, (j < wd 0%nat)%nat -> near del (s_x p j) (s_x p0 j)) /\ (forall r, (r < o)%nat -> near del (s_d p r) (s_d p0 r)) /\
    (forall q r c, (q < Q)%nat -> (r < wd (S q))%nat -> (c <= wd q)%nat -> near del (s_W p q r c) (s_W p0 q r c)) /\
    (forall r c, (r < o)%nat -> (c <= wd Q)%nat -> near del (s_V p r c) (s_V p0 r c)).
  Definition near_output (eps : R) (p p0 : step_data) : Prop :=
    (forall r, (r < o)%nat -> near eps (s_e p r) (s_e p0 r)) /\
    (forall q r c, (q < Q)%nat -> (r < wd (S q))%nat -> (c <= wd q)%nat -> near eps (s_W' p q r c) (s_W' p0 q r c)) /\
    (forall r c, (r < o)%nat -> (c <= wd Q)%nat -> near eps (s_V' p r c) (s_V' p0 r c)).

  Lemma step_continuous p0 : is_step p0 -> forall eps, 0 < eps -> exists del, 0 < del /\ forall p, is_step p -> near_input del p p0 -> near_output eps p p0.
  Proof.
    intros H0 eps He.
    set (close := fun del p => is_step p /\ near_input del p p0).
    set (F := fun P : step_data -> Prop => exists del, 0 < del /\ forall p, close del p -> P p).
    assert (nm : forall a b u v, a <= b -> near a u v -> near b u v) by (unfold near; intros; lra).
    assert (mono : forall a b p, a <= b -> close a p -> close b p).
    { intros a b p Hab (H1 & N1 & N2 & N3 & N4 & N5 & N6). split; [exact H1|]. repeat split; intros; eauto using nm. }
    assert (Fi : forall P Q : step_data -> Prop, (forall i, P i -> Q i) -> F P -> F Q).
    { intros P P' H (del & Hd & HP). exists del. split; [exact Hd|]. auto. }
    assert (Fa : forall P Q : step_data -> Prop, F P -> F Q -> F (fun i => P i /\ Q i)).
    { intros P P' (d1 & Hd1 & H1) (d2 & Hd2 & H2). exists (Rmin d1 d2). split; [apply Rmin_glb_lt; assumption|]. intros p Hp.
      split; [apply H1; apply (mono (Rmin d1 d2)); [apply Rmin_l|exact Hp]|apply H2; apply (mono (Rmin d1 d2)); [apply Rmin_r|exact Hp]]. }
    assert (Ft : F (fun _ => True)) by (exists 1; split; [lra|auto]).
    assert (Fs : F is_step) by (exists 1; split; [lra|intros p (Hp & _); exact Hp]).
    assert (Fn : forall (h : step_data -> R) l, (forall del p, near_input del p p0 -> near del (h p) l) -> tends F h l).
    { intros h l H e0 He0. exists e0. split; [exact He0|]. intros p (_ & Hp). apply H, Hp. }
    assert (Fev : forall (h h' : step_data -> R) l l', (forall p, is_step p -> h p = h' p) -> l = l' -> tends F h' l' -> tends F h l).
    { intros h h' l l' H -> Ht. apply (tends_ev F Fi Fa h h'); [|exact Ht]. apply (Fi is_step); auto. }
    assert (Fall : forall m (P : nat -> step_data -> Prop), (forall i, (i < m)%nat -> F (P i)) -> F (fun p => forall i, (i < m)%nat -> P i p)).
    { induction m as [|m IH]; intros P HP; [apply (Fi (fun _ => True)); [intros; lia|exact Ft]|].
      apply (Fi (fun p => (forall i, (i < m)%nat -> P i p) /\ P m p)); [|apply Fa; [apply IH; intros; apply HP; lia|apply HP; lia]].
      intros p (A & B) i Hi. destruct (Nat.eq_dec i m) as [->|]; [exact B|apply A; lia]. }
    assert (TW : forall q r c, (q < Q)%nat -> (r < wd (S q))%nat -> (c <= wd q)%nat -> tends F (fun p => s_W p q r c) (s_W p0 q r c)).
    { intros q r c Hq Hr Hc. apply Fn. intros del p N. apply N; auto. }
    assert (TV : forall r c, (r < o)%nat -> (c <= wd Q)%nat -> tends F (fun p => s_V p r c) (s_V p0 r c)).
    { intros r c Hr Hc. apply Fn. intros del p N. apply N; auto. }
    assert (TA : forall q, (q <= Q)%nat -> forall r, (r < wd q)%nat -> tends F (fun p => activity f wd (s_W p) (s_x p) q r) (activity f wd (s_W p0) (s_x p0) q r)).
    { induction q as [|q IH]; intros Hq r Hr; cbn [activity].
      - apply Fn. intros del p N. apply N; auto.
      - apply (tends_comp F Fi); [apply squash_cont|]. apply (tends_plus F Fi Fa); [apply TW; auto; lia|].
        apply (tends_sumn F Fi Fa Ft (wd q) (fun p j => s_W p q r (S j) * activity f wd (s_W p) (s_x p) q j)). intros j Hj.
        apply (tends_mult F Fi Fa Ft); [apply TW; lia|apply IH; lia]. }
    assert (TL : forall q c, (q <= Q)%nat -> (c <= wd q)%nat -> tends F (fun p => lead (activity f wd (s_W p) (s_x p) q) c) (lead (activity f wd (s_W p0) (s_x p0) q) c)).
    { intros q [|c] Hq Hc; cbn [lead]; [apply (tends_const F Fi Ft)|apply TA; lia]. }
    assert (TSl : forall h l, tends F h l -> tends F (fun p => slope f (h p)) (slope f l)).
    { intros h l Hh. destruct f; cbn [slope]; repeat (apply (tends_mult F Fi Fa Ft) || apply (tends_minus F Fi Fa) || apply (tends_const F Fi Ft)); exact Hh. }
    assert (TE : forall r, (r < o)%nat -> tends F (fun p => s_e p r) (s_e p0 r)).
    { intros r Hr. apply (Fev _ (fun p => s_d p r - response (wd Q) (s_V p) (activity f wd (s_W p) (s_x p) Q) r) _ (s_d p0 r - response (wd Q) (s_V p0) (activity f wd (s_W p0) (s_x p0) Q) r)).
      - intros p Hp. apply Hp, Hr.
      - apply H0, Hr.
      - apply (tends_minus F Fi Fa); [apply Fn; intros del p N; apply N; exact Hr|]. unfold response. apply (tends_plus F Fi Fa); [apply TV; lia|].
        apply (tends_sumn F Fi Fa Ft (wd Q) (fun p j => s_V p r (S j) * activity f wd (s_W p) (s_x p) Q j)). intros j Hj. apply (tends_mult F Fi Fa Ft); [apply TV; lia|apply TA; lia]. }
    assert (TW' : forall q, (q < Q)%nat -> (forall r, (r < wd (S q))%nat -> tends F (fun p => s_D p q r) (s_D p0 q r)) ->
      forall r c, (r < wd (S q))%nat -> (c <= wd q)%nat -> tends F (fun p => s_W' p q r c) (s_W' p0 q r c)).
    { intros q Hq HD r c Hr Hc. apply (Fev _ (fun p => s_W p q r c + s_rate p q * s_D p q r * lead (activity f wd (s_W p) (s_x p) q) c) _ (s_W p0 q r c + s_rate p0 q * s_D p0 q r * lead (activity f wd (s_W p0) (s_x p0) q) c)).
      - intros p Hp. apply Hp; auto.
      - apply H0; auto.
      - apply (tends_plus F Fi Fa); [apply TW; auto|]. apply (tends_mult F Fi Fa Ft); [apply (tends_mult F Fi Fa Ft)|apply TL; lia]; [apply Fn; intros del p N; apply N; exact Hq|apply HD, Hr]. }
    assert (TD : forall j q, (q + S j = Q)%nat -> forall r, (r < wd (S q))%nat -> tends F (fun p => s_D p q r) (s_D p0 q r)).
    { induction j as [|j IH]; intros q Hq r Hr.
      - replace q with (Q - 1)%nat in * by lia. replace (S (Q - 1)) with Q in Hr by lia.
        eapply Fev; [intros p (_ & _ & _ & Hp & _); exact (Hp r Hr)|destruct H0 as (_ & _ & _ & H4 & _); exact (H4 r Hr)|]. apply (tends_mult F Fi Fa Ft).
        + apply TSl, TA; lia.
        + destruct (Nat.eqb_spec o 1) as [E|E].
          * apply (tends_mult F Fi Fa Ft); [apply TE; lia|apply TV; lia].
          * apply (tends_mult F Fi Fa Ft); [apply (tends_minus F Fi Fa); [apply (tends_const F Fi Ft)|apply TA; lia]|].
            apply (tends_sumn F Fi Fa Ft o (fun p i => s_e p i * s_V p i (S r))). intros i Hi. apply (tends_mult F Fi Fa Ft); [apply TE; lia|apply TV; lia].
      - assert (Hq' : (S q < Q)%nat) by lia. eapply Fev; [intros p (_ & _ & _ & _ & Hp); exact (Hp q r Hq' Hr)|destruct H0 as (_ & _ & _ & _ & H5); exact (H5 q r Hq' Hr)|]. apply (tends_mult F Fi Fa Ft).
        + apply (tends_mult F Fi Fa Ft); [apply TSl, TA; lia|]. apply (tends_minus F Fi Fa); [apply (tends_const F Fi Ft)|apply TA; lia].
        + apply (tends_sumn F Fi Fa Ft (wd (S (S q))) (fun p i => s_D p (S q) i * s_W' p (S q) i (S r))). intros i Hi. apply (tends_mult F Fi Fa Ft); [apply IH; lia|].
          apply TW'; [lia|intros r' Hr'; apply IH; lia|exact Hi|lia]. }
    assert (TV' : forall r c, (r < o)%nat -> (c <= wd Q)%nat -> tends F (fun p => s_V' p r c) (s_V' p0 r c)).
    { intros r c Hr Hc. apply (Fev _ (fun p => s_V p r c + s_ro p * s_e p r * lead (activity f wd (s_W p) (s_x p) Q) c) _ (s_V p0 r c + s_ro p0 * s_e p0 r * lead (activity f wd (s_W p0) (s_x p0) Q) c)).
      - intros p Hp. apply Hp; auto.
      - apply H0; auto.
      - apply (tends_plus F Fi Fa); [apply TV; auto|]. apply (tends_mult F Fi Fa Ft); [apply (tends_mult F Fi Fa Ft)|apply TL; lia]; [apply Fn; intros del p N; apply N|apply TE, Hr]. }
    assert (G : F (fun p => near_output eps p p0)).
    { apply (Fi (fun p => (forall r, (r < o)%nat -> near eps (s_e p r) (s_e p0 r)) /\
        (forall q, (q < Q)%nat -> forall r, (r < wd (S q))%nat -> forall c, (c < S (wd q))%nat -> near eps (s_W' p q r c) (s_W' p0 q r c)) /\
        (forall r, (r < o)%nat -> forall c, (c < S (wd Q))%nat -> near eps (s_V' p r c) (s_V' p0 r c)))).
      - intros p (A & B & C). split; [exact A|]. split; intros; [apply B; auto; lia|apply C; auto; lia].
      - apply Fa; [|apply Fa].
        + apply Fall. intros r Hr. exact (TE r Hr eps He).
        + apply Fall. intros q Hq. apply Fall. intros r Hr. apply Fall. intros c Hc. apply (TW' q Hq); [intros r' Hr'; apply (TD (Q - S q)%nat); [lia|exact Hr']|exact Hr|lia|exact He].
        + apply Fall. intros r Hr. apply Fall. intros c Hc. exact (TV' r c Hr ltac:(lia) eps He). }
    destruct G as (del & Hdel & G). exists del. split; [exact Hdel|]. intros p Hp N. apply G. split; assumption.
  Qed.
End OneStep.

Section C116.
  Variable solve : list rvec -> list rvec -> option (list rvec).
  #[local] Hint Extern 0 (Num R) => exact (RNum solve) : typeclass_instances.
  Notation net := (net R).
  Notation val := (val R).

  (** predictions change at most by the product of the gains of the layers times the change of the input *)
  Theorem C116_sensitivity : forall sizes n_input outputs f mu n xa xb ya yb rho t r,
    net_of sizes n_input outputs f mu n -> length xa = n_input -> length xb = n_input ->
    snd (net_predict xa n) = Ok ya -> snd (net_predict xb n) = Ok yb ->
    (forall q r, (q < length sizes)%nat -> (r < width n_input sizes (S q))%nat -> sumn (width n_input sizes q) (fun j => Rabs (hidden_w n q r (S j))) <= rho q) ->
    (forall q, (q < length sizes)%nat -> 0 <= rho q) -> 0 <= t -> (forall j, (j < n_input)%nat -> Rabs (nth j xa 0 - nth j xb 0) <= t) -> (r < outputs)%nat ->
    Rabs (comp ya r - comp yb r) <= sumn (width n_input sizes (length sizes)) (fun j => Rabs (out_w n r (S j))) * (gains (steepest f) rho (length sizes) * t).
  Proof.
    intros sizes k o f mu n xa xb ya yb rho t r Hn Ha Hb Ea Eb Hrho Hp Ht Hx Hr.
    assert (P : forall x y, length x = k -> snd (net_predict x n) = Ok y ->
      comp y r = response (width k sizes (length sizes)) (out_w n) (activity f (width k sizes) (hidden_w n) (fun j => nth j x 0) (length sizes)) r).
    { intros x y Hl E. pose proof (net_reach_ok _ _ _ _ (net_of_reach _ _ _ _ _ _ Hn)) as Ho.
      destruct (net_predict_ok sizes k o x n Ho Hl) as (P1 & _ & P3 & _). rewrite E in P1. assert (V : vlen y o) by (injection P1 as ->; auto).
      destruct (C66_learning_step solve _ _ _ _ _ n x y Hn Hl V) as (y' & e & E1 & _ & Hy & _). rewrite E in E1. assert (y' = y) by (injection E1; auto). subst y'. apply Hy, Hr. }
    rewrite (P xa ya Ha Ea), (P xb yb Hb Eb). unfold response.
    match goal with |- Rabs (?w + ?s - (?w + ?s')) <= _ => replace (w + s - (w + s')) with (s - s') by ring end.
    apply (sumn_diff_bound _ (fun j => out_w n r (S j))). intros j Hj.
    apply (activity_lip f (width k sizes) (hidden_w n) _ _ rho t (length sizes)); auto.
  Qed.

  Definition near_net (sizes : list nat) (k o : nat) (del : R) (na nb : net) : Prop :=
    (forall q r c, (q < length sizes)%nat -> (r < width k sizes (S q))%nat -> (c <= width k sizes q)%nat -> near del (hidden_w na q r c) (hidden_w nb q r c)) /\
    (forall r c, (r < o)%nat -> (c <= width k sizes (length sizes))%nat -> near del (out_w na r c) (out_w nb r c)).
  Definition near_rates (sizes : list nat) (k : nat) (del : R) (ma mb : muarg R) : Prop :=
    forall q, (q <= length sizes)%nat -> near del (rate_of ma (width k sizes q)) (rate_of mb (width k sizes q)).
  Definition near_val (o : nat) (del : R) (a b : val) : Prop := forall r, (r < o)%nat -> near del (comp a r) (comp b r).
  Definition near_sample (k o : nat) (del : R) (sa sb : rvec * val) : Prop :=
    sample_ok k o sa /\ (forall j, (j < k)%nat -> near del (nth j (fst sa) 0) (nth j (fst sb) 0)) /\ near_val o del (snd sa) (snd sb).

  (** weights, learning rate and data close enough: all errors and all weights stay close through the whole training *)
  Theorem C116_training_continuous : forall sizes n_input outputs f mu n l,
    net_of sizes n_input outputs f mu n -> Forall (sample_ok n_input outputs) l ->
    forall eps, 0 < eps -> exists del, 0 < del /\ forall mu' n' l',
      net_of sizes n_input outputs f mu' n' -> near_rates sizes n_input del mu' mu -> near_net sizes n_input outputs del n' n ->
      Forall2 (near_sample n_input outputs del) l' l ->
      near_net sizes n_input outputs eps (learned n' l') (learned n l) /\ Forall2 (near_val outputs eps) (errors n' l') (errors n l).
  Proof.
    intros sizes k o f mu n l Hn Fl. revert n Hn. induction l as [|s l IH]; intros n Hn eps He.
    - exists eps. split; [exact He|]. intros mu' n' l' _ _ HN HF. inversion HF; subst. split; [exact HN|constructor].
    - inversion Fl as [|? ? Hs Fl']; subst.
      destruct (IH Fl' (learn n s) (net_of_learn solve _ _ _ _ _ _ _ Hn) eps He) as (d1 & Hd1 & H1). clear IH.
      destruct (errs solve _ _ _ _ _ n s Hn Hs) as (e & _ & Ee & L). destruct (step_is _ _ _ _ _ _ _ _ _ _ _ _ _ L) as (D & Hst).
      pose proof (size_pos solve _ _ _ _ _ _ Hn) as HQ.
      destruct (step_continuous f (width k sizes) (length sizes) o HQ _ Hst (Rmin eps d1) (Rmin_glb_lt _ _ _ He Hd1)) as (d2 & Hd2 & H2).
      exists (Rmin d1 d2). split; [apply Rmin_glb_lt; assumption|]. intros mu' n' l' Hn' HR HN HF.
      inversion HF as [|s' ? l'' ? (Hs' & HX & HD) HF']; subst.
      destruct (errs solve _ _ _ _ _ n' s' Hn' Hs') as (e' & _ & Ee' & L'). destruct (step_is _ _ _ _ _ _ _ _ _ _ _ _ _ L') as (D' & Hst').
      assert (nm : forall a b u v, a <= b -> near a u v -> near b u v) by (unfold near; intros; lra).
      pose proof (Rmin_l d1 d2) as M1. pose proof (Rmin_r d1 d2) as M2. pose proof (Rmin_l eps d1) as M3. pose proof (Rmin_r eps d1) as M4.
      destruct (H2 _ Hst') as (N1 & N2 & N3).
      { unfold near_input. cbn [s_rate s_ro s_x s_d s_W s_V]. split; [intros q Hq; apply (nm _ _ _ _ M2), HR; lia|]. split; [apply (nm _ _ _ _ M2), HR; lia|].
        split; [intros j Hj; apply (nm _ _ _ _ M2), HX, Hj|]. split; [intros r Hr; apply (nm _ _ _ _ M2), HD, Hr|].
        destruct HN as (A & B). split; intros; apply (nm _ _ _ _ M2); [apply A|apply B]; auto. }
      cbn [s_e s_W' s_V'] in N1, N2, N3.
      destruct (H1 mu' (learn n' s') l'') as (G1 & G2).
      + apply net_of_learn; exact Hn'.
      + intros q Hq. apply (nm _ _ _ _ M1), HR, Hq.
      + split; intros; apply (nm _ _ _ _ M4); auto.
      + clear - HF' M1 nm. induction HF' as [|a b la lb (A & B & C) HF IHF]; constructor; [|exact IHF]. split; [exact A|]. split; intros j Hj; apply (nm _ _ _ _ M1); [apply B|apply C]; exact Hj.
      + split; [exact G1|]. cbn [errors]. rewrite Ee'. constructor; [|exact G2]. intros r Hr. apply (nm _ _ _ _ M3), N1, Hr.
  Qed.
  (** a concrete case: the network of C68, two inputs half a unit apart; and one nearby network and training set for every distance *)
  Example C116_hypotheses :
    net_of [2]%nat 2 1 Tanh (MuNum (1 / 4)) z_net /\
    (exists ya yb, snd (net_predict [1; 2] z_net) = Ok ya /\ snd (net_predict [3 / 2; 2] z_net) = Ok yb) /\
    (forall q r, (q < 1)%nat -> (r < width 2 [2]%nat (S q))%nat -> sumn (width 2 [2]%nat q) (fun j => Rabs (hidden_w z_net q r (S j))) <= 2 / 3) /\
    (forall j, (j < 2)%nat -> Rabs (nth j [1; 2] 0 - nth j [3 / 2; 2] 0) <= 1 / 2) /\
    Forall (sample_ok 2 1) [([1; 2], VNum 3)] /\
    forall del, 0 < del -> exists a n' x', a <> 1 / 4 /\ x' <> 1 /\ net_of [2]%nat 2 1 Tanh (MuNum a) n' /\ near_rates [2]%nat 2 del (MuNum a) (MuNum (1 / 4)) /\
      near_net [2]%nat 2 1 del n' z_net /\ Forall2 (near_sample 2 1 del) [([x'; 2], VNum 3)] [([1; 2], VNum 3)].
  Proof.
    split; [apply z_net_of|]. split.
    { destruct (net_predict_ok [2]%nat 2 1 [1; 2] z_net (net_reach_ok _ _ _ _ (net_of_reach _ _ _ _ _ _ (z_net_of solve))) eq_refl) as (P1 & _).
      destruct (net_predict_ok [2]%nat 2 1 [3 / 2; 2] z_net (net_reach_ok _ _ _ _ (net_of_reach _ _ _ _ _ _ (z_net_of solve))) eq_refl) as (P2 & _).
      do 2 eexists. split; [exact P1|exact P2]. }
    split.
    { intros q r Hq Hr. replace q with 0%nat in * by lia. change (width 2 [2%nat] 1) with 2%nat in Hr. change (width 2 [2%nat] 0) with 2%nat. cbn [sumn].
      assert (E : forall j, (j < 2)%nat -> hidden_w z_net 0 r (S j) = 1 / 3) by (intros j Hj; destruct r as [|[|r]]; [| |lia]; (destruct j as [|[|j]]; [| |lia]); reflexivity).
      rewrite !E by lia. rewrite Rabs_pos_eq; lra. }
    split. { intros j Hj. destruct j as [|[|j]]; [| |lia]; cbn [nth]; apply Rabs_le; lra. }
    split; [repeat constructor|]. intros del Hd.
    destruct (new_net z_rng1 z_rng [2]%nat 2 1 Tanh (MuNum (1 / 4 + del / 2))) as [n'|] eqn:E; [|discriminate E].
    assert (Hn : forall u, near del u u) by (intros u; unfold near; rewrite Rminus_diag_eq, Rabs_R0 by reflexivity; exact Hd).
    assert (Hh : forall u, near del (u + del / 2) u) by (intros u; unfold near; replace (u + del / 2 - u) with (del / 2) by ring; rewrite Rabs_pos_eq; lra).
    exists (1 / 4 + del / 2), n', (1 + del / 2). split; [lra|]. split; [lra|]. split; [apply (made _ _ _ _ _ z_rng1 z_rng); [apply z_rngs_ok|exact E]|].
    split; [intros q _; cbn [rate_of]; apply Hh|]. split.
    - injection E as <-. split.
      + intros q r c Hq Hr Hc. cbn [length] in Hq. replace q with 0%nat in * by lia. change (width 2 [2%nat] 1) with 2%nat in Hr. change (width 2 [2%nat] 0) with 2%nat in Hc.
        destruct r as [|[|r]]; [| |lia]; (destruct c as [|[|[|c]]]; [| | |lia]); apply Hn.
      + intros r c Hr Hc. change (width 2 [2%nat] (length [2%nat])) with 2%nat in Hc. destruct c as [|[|[|c]]]; [| | |lia]; apply Hn.
    - constructor; [|constructor]. split; [repeat constructor|]. split; [|intros r Hr; apply Hn].
      intros j Hj. destruct j as [|[|j]]; [| |lia]; cbn [nth fst]; [apply Hh|apply Hn].
  Qed.
End C116.
