(** Property C26, memory of size 1, binary64 arithmetic: the mean of an empty array is nan. *)
From Coq Require Import QArith Uint63 PrimFloat FloatOps FloatAxioms SpecFloat.
From Verif Require Import Py Num NumF Numpy Filters Registry Spec StructProofs RunProofs Reach Steps PropsAPMem History PropsOCNLMS.
Open Scope nat_scope.

(** ** nan is absorbing *)
Lemma is_nan_SF (x : float) : Prim2SF x = S754_nan -> x = nan.
Proof. intros H. rewrite <- (SF2Prim_Prim2SF x), H. reflexivity. Qed.
Lemma nan_SF : Prim2SF nan = S754_nan.
Proof. vm_compute; reflexivity. Qed.
Lemma add_nan_r x : (x + nan)%float = nan.
Proof. apply is_nan_SF. rewrite add_spec, nan_SF. destruct (Prim2SF x); reflexivity. Qed.
Lemma add_nan_l x : (nan + x)%float = nan.
Proof. apply is_nan_SF. rewrite add_spec, nan_SF. destruct (Prim2SF x); reflexivity. Qed.
Lemma sub_nan_r x : (x - nan)%float = nan.
Proof. apply is_nan_SF. rewrite sub_spec, nan_SF. destruct (Prim2SF x); reflexivity. Qed.
Lemma mul_nan_r x : (x * nan)%float = nan.
Proof. apply is_nan_SF. rewrite mul_spec, nan_SF. destruct (Prim2SF x); reflexivity. Qed.
Lemma mul_nan_l x : (nan * x)%float = nan.
Proof. apply is_nan_SF. rewrite mul_spec, nan_SF. destruct (Prim2SF x); reflexivity. Qed.

Section Props.
  Variable solve : list (list float) -> list (list float) -> option (list (list float)).
  #[local] Hint Extern 0 (Num float) => exact (FNum solve) : typeclass_instances.
  Notation obj := (obj float).

  Definition learned_count (evs : list (event float)) : nat :=
    length (filter (fun ev => match ev with Learned _ _ => true | _ => false end) evs).

  Definition nan_inv (n : nat) (evs : list (event float)) (o : obj) : Prop :=
    match o_ext o with
    | XOCNLMS _ mem em mx md idx =>
        mem = 1 /\ idx = 0 /\ (evs <> [] -> em = false) /\ (evs = [] -> em = true)
    | _ => False
    end /\
    (2 <= learned_count evs \/ (1 <= learned_count evs /\ exists x r, evs = Predicted x :: r) -> o_w o = repeat nan n).

  Lemma mean_nil : mean (@nil float) = nan.
  Proof. vm_compute. reflexivity. Qed.

  Lemma oc_y_nan n w mx md x : length md = 1 -> oc_y n w false mx md 0 x = nan.
  Proof.
    intros H. destruct md as [|a [|]]; try discriminate. unfold oc_y, oc_read. cbn [fst snd delete firstn skipn app].
    rewrite mean_nil. apply add_nan_r.
  Qed.

  Lemma nan_weights w dx n c : length w = n -> length dx = n -> map2 nadd w (vscale (nmul c nan) dx) = repeat nan n.
  Proof.
    change (@nmul float _ c nan) with (c * nan)%float. rewrite mul_nan_r.
    revert dx n; induction w as [|a w IH]; intros [|b dx] [|n] H1 H2; try discriminate; [reflexivity|].
    cbn in H1, H2. cbn [vscale map map2 repeat]. change (@nadd float _ a (@nmul float _ nan b)) with (a + nan * b)%float.
    rewrite mul_nan_l, add_nan_r. f_equal. apply IH; lia.
  Qed.
  Lemma nan_keep w dw n : w = repeat nan n -> length dw = n -> map2 nadd w dw = repeat nan n.
  Proof.
    intros ->. revert dw; induction n as [|n IH]; intros [|b dw] H; try discriminate; [reflexivity|].
    cbn [repeat map2]. change (@nadd float _ nan b) with (nan + b)%float. rewrite add_nan_l. f_equal. apply IH. cbn in H; lia.
  Qed.

  Lemma learned_app a b : learned_count (a ++ b) = learned_count a + learned_count b.
  Proof. unfold learned_count. rewrite filter_app, app_length. reflexivity. Qed.

  Lemma nan_learn n s (o : obj) d x : wf n o -> nan_inv n s o -> length x = n -> nan_inv n (s ++ [Learned d x]) (fst (adapt d x o)).
  Proof.
    intros Hwf (HE & HW) Hl. destruct (o_ext o) as [| | | | | | | | | | | eps mem em mx md idx | | | |] eqn:E; try contradiction.
    destruct HE as (-> & -> & H1 & H2). pose proof Hwf as (Hw & _ & Hx). rewrite E in Hx. destruct Hx as (_ & _ & _ & Hld & _).
    rewrite (adapt_OCNLMS n o d x _ _ _ _ _ _ Hwf Hl E). cbv zeta. cbn [fst]. unfold nan_inv. cbn [set_w set_ext o_ext o_w].
    split; [repeat split; auto; intros Hn; destruct s; discriminate|].
    intros Hcnt.
    assert (Hdx : length (map2 nsub x (snd (oc_read n (oc_em 1 em 0) (set_nth (oc_idx 1 0) x mx) md (oc_idx 1 0)))) = n)
      by (apply map2_length_eq; [exact Hl|apply oc_read_length]).
    destruct s as [|ev s].
    - exfalso. cbn in Hcnt. destruct Hcnt as [Hcnt|(Hcnt & x' & r & Hr)]; [lia|discriminate].
    - rewrite (H1 ltac:(discriminate)). rewrite oc_y_nan by exact Hld.
      change (@nsub float _ d nan) with (d - nan)%float. rewrite sub_nan_r. rewrite (H1 ltac:(discriminate)) in Hdx.
      apply nan_weights; auto.
  Qed.

  Lemma nan_pred n s (o : obj) x : wf n o -> nan_inv n s o -> length x = n -> nan_inv n (s ++ [Predicted x]) (fst (predict x o)).
  Proof.
    intros Hwf (HE & HW) Hl. destruct (o_ext o) as [| | | | | | | | | | | eps mem em mx md idx | | | |] eqn:E; try contradiction.
    destruct HE as (-> & -> & H1 & H2).
    rewrite (predict_OCNLMS n o x _ _ _ _ _ _ Hwf Hl E). cbn [fst]. unfold nan_inv. cbn [set_ext o_ext o_w].
    split; [repeat split; auto; intros Hn; destruct s; discriminate|].
    rewrite learned_app. change (learned_count [Predicted x]) with 0. rewrite Nat.add_0_r. intros [H|(H & x' & r & Hr)]; apply HW; [auto|].
    right. split; [exact H|]. destruct s as [|ev s]; [cbn in H; lia|]. cbn in Hr. injection Hr as -> Hr. eauto.
  Qed.

  (** An OCNLMS filter with mem = 1: after any call every prediction is nan, and after the second sample (or the
      first, if a prediction was asked before) all weights are nan *)
  Theorem C26_mem1_becomes_nan : forall rng (kw : kwargs float) n (o : obj) ps,
    rng_ok rng -> sane_kw kw -> kw_n kw = Some (Z.of_nat n) -> new_filter rng KOCNLMS kw = Ok o -> kw_mem kw = Some 1 ->
    Forall (op_shape n) ps -> events_all ps o <> [] ->
    (forall x, length x = n -> snd (predict x (exec_all ps o)) = Ok nan) /\
    (2 <= learned_count (events_all ps o) -> o_w (exec_all ps o) = repeat nan n).
  Proof.
    intros rng kw n o ps Hrng Hkw Hn Ho Hmem HF Hne. pose proof (new_filter_wf rng KOCNLMS kw n o Hrng Hkw Hn Ho) as Hwf.
    destruct (oc_new rng kw n o Hkw Hn Ho) as (eps & _ & H0). rewrite Hmem in H0.
    destruct (hist_exec_all n (nan_inv n)) with (ps := ps) (s := @nil (event float)) (o := o) as (H1 & H2); auto.
    - intros s o1 d x. apply nan_learn.
    - intros s o1 x. apply nan_pred.
    - split; [|cbn; intros [H|(H & _)]; lia].
      destruct (o_ext o) as [| | | | | | | | | | | eps' mem' em mx md idx | | | |]; try contradiction.
      destruct H0 as (_ & -> & -> & -> & _). repeat split; auto. congruence.
    - cbn [app] in H1. destruct H1 as (HE & HW). split; [|intros H; apply HW; left; exact H].
      intros x Hl. destruct (o_ext (exec_all ps o)) as [| | | | | | | | | | | eps' mem' em mx md idx | | | |] eqn:E; try contradiction.
      destruct HE as (-> & -> & Hem & _).
      rewrite (predict_OCNLMS n _ x _ _ _ _ _ _ H2 Hl E). cbn [snd]. f_equal. rewrite (Hem Hne).
      destruct H2 as (_ & _ & Hx). rewrite E in Hx. apply oc_y_nan. apply Hx.
  Qed.
End Props.

(** the hypotheses can be met *)
Definition ocF_kw : kwargs float :=
  mkKw (Some 2%Z) None None None None None None None None None (Some 1) false.
#[local] Instance FN : Num float := FNum (fun _ _ => None).
Definition ocF : obj float := mkObj [zero; zero] 2 (nofQ (1 # 10)) None (XOCNLMS n1 1 true [[zero; zero]] [zero] 0).
Example C26_mem1_hypotheses :
  new_filter (fun k => repeat zero k) KOCNLMS ocF_kw = Ok ocF /\ rng_ok (fun k => repeat zero k) /\ sane_kw ocF_kw /\
  learned_count (events_all [OpRun [one; one] [[one; two]; [two; one]]] ocF) = 2.
Proof.
  split; [vm_compute; reflexivity|]. split; [intros k; apply repeat_length|].
  split; [split; [intros m [= <-]; lia|discriminate]|]. vm_compute. reflexivity.
Qed.
