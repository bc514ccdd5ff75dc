(** Properties C10-C12: construction of filters, factory and registry (any arithmetic). *)
From Coq Require Import QArith Ascii.
From Verif Require Import Py Num NumQ Numpy Filters Registry Spec StructProofs RunProofs Reach PropsRun.
Open Scope nat_scope.

(** ** Specification *)

(** two characters are the same letter: equal, or an ASCII lower/upper case pair *)
Definition ci_char (a b : ascii) : Prop :=
  a = b \/
  (97 <= nat_of_ascii a <= 122 /\ nat_of_ascii a = nat_of_ascii b + 32) \/
  (97 <= nat_of_ascii b <= 122 /\ nat_of_ascii b = nat_of_ascii a + 32).

Inductive ci_eq : string -> string -> Prop :=
| ci_nil : ci_eq EmptyString EmptyString
| ci_cons a b s t : ci_char a b -> ci_eq s t -> ci_eq (String a s) (String b t).

(** the documented names *)
Definition documented_names : list (string * kind) :=
  [("AP", KAP); ("GMCC", KGMCC); ("GNGD", KGNGD); ("LLNCOSH", KLlncosh); ("LMF", KLMF); ("LMS", KLMS);
   ("NLMF", KNLMF); ("NLMS", KNLMS); ("NSSLMS", KNSSLMS); ("OCNLMS", KOCNLMS); ("RLS", KRLS);
   ("SSLMS", KSSLMS); ("VSLMS_Ang", KAng); ("VSLMS_Benveniste", KBenveniste);
   ("VSLMS_Mathews", KMathews)]%string.

(** the keywords besides n, mu, w that each class documents *)
Definition documented_params (k : kind) : list param :=
  match k with
  | KAP => [Porder; Pifc]
  | KGMCC => [Plambd; Palpha]
  | KGNGD => [Peps; Pro]
  | KLlncosh => [Plambd]
  | KLMF | KLMS | KSSLMS => []
  | KNLMF | KNLMS | KNSSLMS | KRLS => [Peps]
  | KOCNLMS => [Peps; Pmem]
  | KAng => [Pro; Pa]
  | KBenveniste | KMathews => [Pro]
  end.

(** classes whose mu has no default *)
Definition mu_required (k : kind) : bool :=
  match k with KLMS | KLMF | KSSLMS | KAP => true | _ => false end.

(** ** Letter case *)
Lemma upper_ascii_spec a b : upper_ascii a = upper_ascii b <-> ci_char a b.
Proof.
  unfold upper_ascii, ci_char.
  assert (Hinj : forall x y, nat_of_ascii x = nat_of_ascii y -> x = y).
  { intros x y H; rewrite <- (ascii_nat_embedding x), <- (ascii_nat_embedding y), H; reflexivity. }
  assert (Hb : forall x, nat_of_ascii x < 256) by apply nat_ascii_bounded.
  assert (He : forall n, n < 256 -> nat_of_ascii (ascii_of_nat n) = n) by apply nat_ascii_embedding.
  pose proof (Hb a) as Ha'; pose proof (Hb b) as Hb'.
  destruct ((97 <=? nat_of_ascii a) && (nat_of_ascii a <=? 122)) eqn:Ea;
  destruct ((97 <=? nat_of_ascii b) && (nat_of_ascii b <=? 122)) eqn:Eb;
  try rewrite andb_true_iff in Ea; try rewrite andb_false_iff in Ea;
  try rewrite andb_true_iff in Eb; try rewrite andb_false_iff in Eb;
  repeat rewrite Nat.leb_le in Ea; repeat rewrite Nat.leb_gt in Ea;
  repeat rewrite Nat.leb_le in Eb; repeat rewrite Nat.leb_gt in Eb.
  - split.
    + intros H; left; apply Hinj. apply (f_equal nat_of_ascii) in H; rewrite !He in H by lia. lia.
    + intros [->|[H|H]]; [reflexivity|lia|lia].
  - split.
    + intros H; apply (f_equal nat_of_ascii) in H; rewrite !He in H by lia. right; left. lia.
    + intros [->|[H|H]]; [lia| |lia]. apply Hinj; rewrite He by lia; lia.
  - split.
    + intros H; apply (f_equal nat_of_ascii) in H; rewrite !He in H by lia. right; right; lia.
    + intros [->|[H|H]]; [lia|lia|]. apply Hinj; rewrite He by lia; lia.
  - split; [auto|]. intros [->|[H|H]]; [reflexivity|lia|lia].
Qed.

Lemma upper_spec s t : upper s = upper t <-> ci_eq s t.
Proof.
  revert t; induction s as [|a s IH]; intros [|b t]; simpl; split; intros H;
    try discriminate; try (inversion H; fail); auto using ci_nil.
  - injection H as H1 H2. constructor; [apply upper_ascii_spec; auto | apply IH; auto].
  - inversion H; subst. f_equal; [apply upper_ascii_spec; auto | apply IH; auto].
Qed.

Lemma dict_get_upper name k : dict_get FILTERS (upper name) = Some k <-> upper name = upper (kind_name k).
Proof.
  split.
  - intros H.
    assert (Hg : forall l, dict_get (map (fun k => (upper (kind_name k), k)) l) (upper name) = Some k ->
                 upper name = upper (kind_name k)).
    { induction l as [|k0 l IH]; simpl; [discriminate|].
      destruct (dict_get (map (fun k => (upper (kind_name k), k)) l) (upper name)) eqn:E;
        [intros [= ->]; auto|].
      destruct (String.eqb_spec (upper (kind_name k0)) (upper name)); [|discriminate].
      intros [= ->]; auto. }
    apply (Hg _ H).
  - intros ->; destruct k; reflexivity.
Qed.

Lemma kind_name_ci k1 k2 : upper (kind_name k1) = upper (kind_name k2) -> k1 = k2.
Proof. destruct k1, k2; intros H; try reflexivity; discriminate H. Qed.

Lemma documented_In name k : In (name, k) documented_names <->
  exists u, upper name = upper u /\ In (name, k) documented_names.
Proof. split; [intros; exists name; auto | intros (u & _ & H); auto]. Qed.

Lemma documented_upper k name : upper name = upper (kind_name k) <->
  exists doc, In (doc, k) documented_names /\ ci_eq name doc.
Proof.
  split.
  - intros H. destruct k; (eexists; split; [unfold documented_names; simpl; tauto|]);
      apply upper_spec; rewrite H; reflexivity.
  - intros (doc & Hin & Hci). apply upper_spec in Hci; rewrite Hci.
    unfold documented_names in Hin; simpl in Hin.
    repeat (destruct Hin as [Hin|Hin]; [injection Hin as <- <-; reflexivity|]). contradiction.
Qed.

(** *** C11 *)
Theorem C11_get_filter : forall name k,
  get_filter name = Ok k <-> exists doc, In (doc, k) documented_names /\ ci_eq name doc.
Proof.
  intros name k; rewrite <- documented_upper, <- dict_get_upper; unfold get_filter.
  destruct (dict_get FILTERS (upper name)); split; intros H; congruence.
Qed.

Theorem C11_unknown_name : forall name,
  (forall doc k, In (doc, k) documented_names -> ~ ci_eq name doc) <-> get_filter name = Err ValueError.
Proof.
  intros name; split; intros H.
  - unfold get_filter; destruct (dict_get FILTERS (upper name)) as [k|] eqn:E; [|reflexivity].
    exfalso. apply dict_get_upper, documented_upper in E as (doc & Hin & Hci). eapply H; eauto.
  - intros doc k Hin Hci.
    assert (Hk : get_filter name = Ok k) by (apply C11_get_filter; eauto). congruence.
Qed.

(** the 15 names are pairwise different even ignoring case, and all 15 classes are there *)
Theorem C11_registry_complete : length documented_names = 15 /\
  (forall k, exists doc, In (doc, k) documented_names /\ get_filter doc = Ok k) /\
  (forall d1 k1 d2 k2, In (d1, k1) documented_names -> In (d2, k2) documented_names -> ci_eq d1 d2 -> k1 = k2).
Proof.
  split; [reflexivity|]. split.
  - intros k; destruct k; (eexists; split; [unfold documented_names; simpl; tauto|reflexivity]).
  - intros d1 k1 d2 k2 H1 H2 Hci. apply upper_spec in Hci.
    assert (E1 : upper d1 = upper (kind_name k1)) by (apply documented_upper; exists d1; split; auto; apply upper_spec; auto).
    assert (E2 : upper d2 = upper (kind_name k2)) by (apply documented_upper; exists d2; split; auto; apply upper_spec; auto).
    apply kind_name_ci; congruence.
Qed.

Example C11_example : get_filter "vslms_MATHEWS" = Ok KMathews /\ get_filter "NLMSx" = Err ValueError.
Proof. split; reflexivity. Qed.

Section Props.
  Context {T : Type} {NT : Num T}.
  Notation vec := (list T).
  Notation mat := (list (list T)).
  Notation obj := (obj T).

  Theorem C11_factory : forall (rng : nat -> vec) (model : string) (kw : kwargs T),
    AdaptiveFilter_factory rng model kw =
      match kw_n kw with
      | None => Err ValueError
      | Some _ => rbind (get_filter model) (fun k => new_filter rng k kw)
      end.
  Proof.
    intros; unfold AdaptiveFilter_factory, get_filter.
    destruct (kw_n kw); cbn [given negb]; [|reflexivity].
    destruct (dict_get FILTERS (upper model)); reflexivity.
  Qed.

  (** filter_data = AdaptiveFilter(model, n=x.shape[1], ...).run(d, x); n in kw is irrelevant *)
  Theorem C11_filter_data : forall (rng : nat -> vec) d x cols model (kw : kwargs T),
    filter_data rng d x cols model kw =
      rbind (AdaptiveFilter_factory rng model (kw_set_n (Z.of_nat cols) kw)) (fun o => snd (run d x o)).
  Proof.
    intros; unfold filter_data, AdaptiveFilter_factory; cbn [kw_set_n kw_n given negb].
    destruct (dict_get FILTERS (upper model)); reflexivity.
  Qed.

  Theorem C11_filter_data_ignores_n : forall (rng : nat -> vec) d x cols model n (kw : kwargs T),
    filter_data rng d x cols model (kw_set_n n kw) = filter_data rng d x cols model kw.
  Proof. intros; reflexivity. Qed.

  (** *** C12 *)
  Lemma accepts_documented k p : accepts k p = true <-> In p (documented_params k).
  Proof. destruct k, p; simpl; split; intros H; try discriminate; intuition (try discriminate). Qed.

  Theorem C12_type_error : forall (rng : nat -> vec) k (kw : kwargs T),
    new_filter rng k kw = Err TypeError <->
    (kw_other kw = true \/
     (exists p, kw_given kw p = true /\ ~ In p (documented_params k)) \/
     kw_n kw = None \/
     (kw_mu kw = None /\ mu_required k = true)).
  Proof.
    intros rng k kw; unfold new_filter.
    destruct (kw_other kw); [split; auto|].
    destruct (existsb _ all_params) eqn:Ex.
    - split; [intros _|reflexivity]. apply existsb_exists in Ex as (p & _ & Hp).
      apply andb_true_iff in Hp as (Hg & Ha). right; left; exists p; split; auto.
      intros Hin; apply accepts_documented in Hin; rewrite Hin in Ha; discriminate.
    - assert (Hno : forall p, kw_given kw p = true -> In p (documented_params k)).
      { intros p Hg. destruct (accepts k p) eqn:Ha; [apply accepts_documented; auto|].
        assert (existsb (fun p => kw_given kw p && negb (accepts k p)) all_params = true).
        { apply existsb_exists; exists p; split; [destruct p; simpl; tauto|]. rewrite Hg, Ha; reflexivity. }
        congruence. }
      destruct (kw_n kw) as [n|]; [|split; auto].
      destruct (kw_mu kw) as [mu|].
      + split.
        * intros H; exfalso; revert H. unfold init_base.
          destruct (n =? -1)%Z; simpl; [discriminate|].
          destruct (init_weights _ _ _) as [wv|ex] eqn:Ew; simpl.
          -- destruct k; simpl; try discriminate. destruct (neqb _ _); simpl; discriminate.
          -- intros [= ->]. revert Ew; unfold init_weights.
             destruct (opt _ _) as [s|v].
             ++ destruct (String.eqb s "random"); [destruct (n <? 0)%Z; discriminate|].
                destruct (String.eqb s "zeros"); [destruct (n <? 0)%Z; discriminate|discriminate].
             ++ destruct (Z.of_nat (length v) =? n)%Z; discriminate.
        * intros [H|[(p & Hg & Hp)|[H|(H & _)]]]; try discriminate. exfalso; apply Hp; auto.
      + destruct k; simpl default_mu; cbv iota;
          try (split; [intros _; right; right; right; split; reflexivity | reflexivity]; fail).
        all: split; [| intros [H|[(p & Hg & Hp)|[H|(_ & H)]]]; try discriminate; exfalso; apply Hp; auto; fail].
        all: intros H; exfalso; revert H; unfold init_base;
          destruct (n =? -1)%Z; simpl; [discriminate|];
          destruct (init_weights _ _ _) as [wv|ex] eqn:Ew; simpl;
          [ try discriminate; destruct (neqb _ _); simpl; discriminate |].
        all: intros [= ->]; revert Ew; unfold init_weights; destruct (opt _ _) as [s|v];
          [ destruct (String.eqb s "random"); [destruct (n <? 0)%Z; discriminate|];
            destruct (String.eqb s "zeros"); [destruct (n <? 0)%Z; discriminate|discriminate]
          | destruct (Z.of_nat (length v) =? n)%Z; discriminate ].
  Qed.

  (** a call that binds its arguments *)
  Definition binds (k : kind) (kw : kwargs T) (n : Z) (mu : T) : Prop :=
    kw_other kw = false /\ (forall p, kw_given kw p = true -> In p (documented_params k)) /\
    kw_n kw = Some n /\
    match kw_mu kw with
    | Some m => mu = m
    | None =>
        match k with
        | KAP | KLMS | KLMF | KSSLMS => False
        | KNLMF | KNLMS | KNSSLMS | KRLS | KOCNLMS => mu = nofQ (1 # 10)
        | KGMCC | KLlncosh => mu = nofQ (1 # 100)
        | KGNGD | KAng | KBenveniste | KMathews => mu = nofQ (1 # 1)
        end
    end.

  (** the value of a keyword: as given, else the documented default *)
  Definition kwval {A} (g : option A) (default : A) : A := match g with Some a => a | None => default end.

  (** documented attributes of a freshly built filter of size n (zero means an n-vector of zeros) *)
  Definition fresh_ext (k : kind) (kw : kwargs T) (n : nat) (mu : T) (x : ext T) : Prop :=
    let z := repeat (nofZ 0) n in
    match k, x with
    | KLMS, XLMS | KLMF, XLMF | KSSLMS, XSSLMS => True
    | KNLMS, XNLMS eps | KNLMF, XNLMF eps | KNSSLMS, XNSSLMS eps => eps = kwval (kw_eps kw) (nofQ (1 # 1000))
    | KGMCC, XGMCC la al => la = kwval (kw_lambd kw) (nofQ (3 # 100)) /\ al = kwval (kw_alpha kw) (nofZ 2)
    | KLlncosh, XLlncosh la => la = kwval (kw_lambd kw) (nofZ 3)
    | KGNGD, XGNGD eps ro le lx =>
        eps = kwval (kw_eps kw) (nofQ (1 # 1)) /\ ro = kwval (kw_ro kw) (nofQ (1 # 10)) /\ le = nofZ 0 /\ lx = z
    | KRLS, XRLS eps R =>
        eps = kwval (kw_eps kw) (nofQ (1 # 1000)) /\ length R = n /\
        forall i j, i < n -> j < n ->
          nth j (nth i R []) (nofZ 0) = nmul (ndiv (nofZ 1) eps) (if i =? j then nofZ 1 else nofZ 0)
    | KOCNLMS, XOCNLMS eps mem em mx md idx =>
        eps = kwval (kw_eps kw) (nofQ (1 # 1)) /\ mem = kwval (kw_mem kw) 100 /\ em = true /\
        mx = repeat z mem /\ md = repeat (nofZ 0) mem /\ idx = 0
    | KAng, XAng ro a le lx lf lm =>
        ro = kwval (kw_ro kw) (nofQ (2 # 10000)) /\ a = kwval (kw_a kw) (nofQ (95 # 100)) /\
        le = nofZ 0 /\ lx = z /\ lf = z /\ lm = mu
    | KBenveniste, XBenveniste ro le lx lf lm =>
        ro = kwval (kw_ro kw) (nofQ (1 # 10)) /\ le = nofZ 0 /\ lx = z /\ lf = z /\ lm = mu
    | KMathews, XMathews ro le lx lm =>
        ro = kwval (kw_ro kw) (nofQ (1 # 10)) /\ le = nofZ 0 /\ lx = z /\ lm = mu
    | KAP, XAP order xm dm ii id ym em =>
        order = kwval (kw_order kw) 5 /\ xm = repeat (repeat (nofZ 0) order) n /\ dm = repeat (nofZ 0) order /\
        length ii = order /\ length id = order /\
        (forall i j, i < order -> j < order ->
          nth j (nth i id []) (nofZ 0) = (if i =? j then nofZ 1 else nofZ 0) /\
          nth j (nth i ii []) (nofZ 0) =
            nmul (kwval (kw_ifc kw) (nofQ (1 # 1000))) (if i =? j then nofZ 1 else nofZ 0))
    | _, _ => False
    end.

  Lemma nth_identity m i j : i < m -> j < m ->
    nth j (nth i (identity m) []) (nofZ 0) = (if i =? j then nofZ 1 else nofZ 0 : T).
  Proof.
    intros Hi Hj; unfold identity.
    rewrite (nth_indep _ [] (map (fun j => if 0 =? j then n1 else n0) (seq 0 m)))
      by (rewrite map_length, seq_length; auto).
    rewrite (map_nth (fun i => map (fun j => if i =? j then n1 else n0) (seq 0 m))).
    rewrite seq_nth by auto. simpl.
    rewrite (nth_indep _ (nofZ 0) (if i =? 0 then n1 else n0)) by (rewrite map_length, seq_length; auto).
    rewrite (map_nth (fun j => if i =? j then n1 else n0)), seq_nth by auto. reflexivity.
  Qed.

  Lemma nth_mscale c (A : mat) i j m : length A = m -> rowsl m A -> i < m -> j < m ->
    nth j (nth i (mscale c A) []) (nofZ 0) = nmul c (nth j (nth i A []) (nofZ 0)).
  Proof.
    intros Hl Hr Hi Hj; unfold mscale.
    rewrite (nth_indep _ [] (vscale c [])) by (rewrite map_length; lia).
    rewrite (map_nth (vscale c)). unfold vscale.
    assert (Hlr : length (nth i A []) = m) by (apply nth_rows; auto; lia).
    rewrite (nth_indep _ (nofZ 0) (nmul c (nofZ 0))) by (rewrite map_length; lia).
    apply (map_nth (nmul c)).
  Qed.

  Lemma init_ext_fresh k kw n mu x : init_ext k kw n mu = Ok x -> fresh_ext k kw n mu x.
  Proof.
    unfold init_ext; destruct k; try (intros [= <-]; simpl; repeat split; auto; fail).
    - (* AP *) intros [= <-]; simpl. set (od := opt (kw_order kw) 5).
      change (kwval (kw_order kw) 5) with od.
      repeat split; auto; rewrite ?mscale_length, ?identity_length; auto.
      + apply nth_identity; auto.
      + rewrite (nth_mscale _ _ _ _ od); [|apply identity_length|apply identity_rows|assumption|assumption].
        rewrite nth_identity by auto. reflexivity.
    - (* RLS *) destruct (neqb _ _); [discriminate|]. intros [= <-]; simpl.
      repeat split; auto; rewrite ?mscale_length, ?identity_length; auto.
      intros i j Hi Hj. rewrite (nth_mscale _ _ _ _ n); [|apply identity_length|apply identity_rows|assumption|assumption].
      rewrite nth_identity by auto. reflexivity.
  Qed.

  (** the initial weights the documentation promises *)
  Definition initial_weights (rng : nat -> vec) (w : option (wspec T)) (n : nat) (wv : vec) : Prop :=
    match w with
    | None => wv = rng n
    | Some (WStr s) => (s = "random"%string /\ wv = rng n) \/ (s = "zeros"%string /\ wv = repeat (nofZ 0) n)
    | Some (WVec v) => wv = v /\ length v = n
    end.

  Lemma binds_new rng k kw n mu : binds k kw n mu ->
    new_filter rng k kw =
      rbind (init_base rng n mu (opt (kw_w kw) (WStr "random")) XBase) (fun o =>
      rmap (fun x => set_ext x o) (init_ext k kw (Z.to_nat n) mu)).
  Proof.
    intros (H1 & H2 & H3 & H4); unfold new_filter; rewrite H1.
    assert (Hex : existsb (fun p => kw_given kw p && negb (accepts k p)) all_params = false).
    { destruct (existsb _ _) eqn:E; auto. apply existsb_exists in E as (p & _ & Hp).
      apply andb_true_iff in Hp as (Hg & Ha). apply H2, accepts_documented in Hg; rewrite Hg in Ha; discriminate. }
    rewrite Hex, H3. destruct (kw_mu kw); [subst; reflexivity|].
    destruct k; try contradiction; subst; reflexivity.
  Qed.

  (** a successful constructor call: attributes as documented *)
  Theorem C10_C12_new_filter : forall (rng : nat -> vec) k (kw : kwargs T) n mu o,
    binds k kw n mu -> new_filter rng k kw = Ok o ->
    (0 <= n)%Z /\ o_n o = Z.to_nat n /\ o_mu o = mu /\ o_hist o = None /\
    initial_weights rng (kw_w kw) (Z.to_nat n) (o_w o) /\
    fresh_ext k kw (Z.to_nat n) mu (o_ext o).
  Proof.
    intros rng k kw n mu o Hb; rewrite (binds_new rng k kw n mu Hb).
    unfold init_base. destruct (Z.eqb_spec n (-1)); simpl; [discriminate|].
    destruct (init_weights _ _ _) as [wv|] eqn:Ew; simpl; [|discriminate].
    destruct (init_ext _ _ _ _) as [x|] eqn:Ex; simpl; [|discriminate].
    intros [= <-]; simpl. apply init_ext_fresh in Ex.
    assert (Hw : (0 <= n)%Z /\ initial_weights rng (kw_w kw) (Z.to_nat n) wv).
    { revert Ew; unfold init_weights, initial_weights. destruct (kw_w kw) as [[s|v]|]; simpl.
      - destruct (String.eqb_spec s "random"); [|destruct (String.eqb_spec s "zeros"); [|discriminate]];
        destruct (Z.ltb_spec n 0); try discriminate; intros [= <-]; split; auto.
      - destruct (Z.eqb_spec (Z.of_nat (length v)) n); [|discriminate].
        intros [= <-]; split; [lia|split; auto; lia].
      - destruct (Z.ltb_spec n 0); try discriminate; intros [= <-]; split; auto. }
    tauto.
  Qed.

  (** which sizes and weights are rejected, and how *)
  Theorem C10_size_minus_one : forall (rng : nat -> vec) k (kw : kwargs T) mu,
    binds k kw (-1) mu -> new_filter rng k kw = Err AttributeError.
  Proof. intros rng k kw mu Hb; rewrite (binds_new _ _ _ _ _ Hb); reflexivity. Qed.

  Theorem C10_rejected_weights : forall (rng : nat -> vec) k (kw : kwargs T) n mu,
    binds k kw n mu -> n <> (-1)%Z ->
    ((n < 0)%Z \/
     (exists v, kw_w kw = Some (WVec v) /\ Z.of_nat (length v) <> n) \/
     (exists s, kw_w kw = Some (WStr s) /\ s <> "random"%string /\ s <> "zeros"%string)) ->
    new_filter rng k kw = Err ValueError.
  Proof.
    intros rng k kw n mu Hb Hn1 Hbad; rewrite (binds_new _ _ _ _ _ Hb); unfold init_base.
    destruct (Z.eqb_spec n (-1)); [contradiction|].
    assert (Hi : init_weights rng (opt (kw_w kw) (WStr "random")) n = Err ValueError).
    { unfold init_weights.
      destruct Hbad as [Hn|[(v & Hv & Hl)|(s & Hs & H1 & H2)]].
      - destruct (opt _ _) as [s|v].
        + destruct (Z.ltb_spec n 0); [|lia]. destruct (String.eqb s "random"), (String.eqb s "zeros"); reflexivity.
        + destruct (Z.eqb_spec (Z.of_nat (length v)) n); [lia|reflexivity].
      - rewrite Hv; simpl. destruct (Z.eqb_spec (Z.of_nat (length v)) n); [lia|reflexivity].
      - rewrite Hs; simpl. destruct (String.eqb_spec s "random"); [contradiction|].
        destruct (String.eqb_spec s "zeros"); [contradiction|reflexivity]. }
    rewrite Hi; reflexivity.
  Qed.

  (** every other call with bound arguments succeeds (RLS: eps must not be 0) *)
  Theorem C10_accepted : forall (rng : nat -> vec) k (kw : kwargs T) n mu wv,
    binds k kw n mu -> (0 <= n)%Z -> initial_weights rng (kw_w kw) (Z.to_nat n) wv ->
    (k = KRLS -> neqb (kwval (kw_eps kw) (nofQ (1 # 1000))) (nofZ 0) = false) ->
    exists o, new_filter rng k kw = Ok o /\ o_w o = wv.
  Proof.
    intros rng k kw n mu wv Hb Hn Hw Hr; rewrite (binds_new _ _ _ _ _ Hb); unfold init_base.
    destruct (Z.eqb_spec n (-1)) as [|Hne]; [lia|].
    assert (Hi : init_weights rng (opt (kw_w kw) (WStr "random")) n = Ok wv).
    { unfold init_weights, initial_weights in *.
      destruct (kw_w kw) as [[s|v]|]; simpl.
      - destruct (Z.ltb_spec n 0); [lia|]. destruct Hw as [(-> & ->)|(-> & ->)]; reflexivity.
      - destruct Hw as (-> & Hl). destruct (Z.eqb_spec (Z.of_nat (length v)) n); [reflexivity|lia].
      - destruct (Z.ltb_spec n 0); [lia|]. subst; reflexivity. }
    rewrite Hi; simpl.
    assert (Hx : exists x, init_ext k kw (Z.to_nat n) mu = Ok x).
    { destruct k; try (eexists; reflexivity). simpl.
      change (opt (kw_eps kw) (nofQ (1 # 1000))) with (kwval (kw_eps kw) (nofQ (1 # 1000) : T)).
      unfold n0. rewrite (Hr eq_refl). eexists; reflexivity. }
    destruct Hx as (x & ->). eexists; split; reflexivity.
  Qed.

  Theorem C10_RLS_eps_zero : forall (rng : nat -> vec) (kw : kwargs T) n mu wv,
    binds KRLS kw n mu -> (0 <= n)%Z -> initial_weights rng (kw_w kw) (Z.to_nat n) wv ->
    neqb (kwval (kw_eps kw) (nofQ (1 # 1000))) (nofZ 0) = true ->
    new_filter rng KRLS kw = Err ZeroDivisionError.
  Proof.
    intros rng kw n mu wv Hb Hn Hw Hz; rewrite (binds_new _ _ _ _ _ Hb); unfold init_base.
    destruct (Z.eqb_spec n (-1)) as [|Hne]; [lia|].
    assert (Hi : init_weights rng (opt (kw_w kw) (WStr "random")) n = Ok wv).
    { unfold init_weights, initial_weights in *.
      destruct (kw_w kw) as [[s|v]|]; simpl.
      - destruct (Z.ltb_spec n 0); [lia|]. destruct Hw as [(-> & ->)|(-> & ->)]; reflexivity.
      - destruct Hw as (-> & Hl). destruct (Z.eqb_spec (Z.of_nat (length v)) n); [reflexivity|lia].
      - destruct (Z.ltb_spec n 0); [lia|]. subst; reflexivity. }
    rewrite Hi; simpl.
    change (opt (kw_eps kw) (nofQ (1 # 1000))) with (kwval (kw_eps kw) (nofQ (1 # 1000) : T)).
    unfold n0; rewrite Hz; reflexivity.
  Qed.

  (** init_weights called again on a filter: returns new weights, does not install them *)
  Theorem C10_init_weights_method : forall (rng : nat -> vec) (w : wspec T) (o : obj),
    init_weights_method rng w (-1) o = (o, init_weights rng w (Z.of_nat (o_n o))).
  Proof. intros; reflexivity. Qed.
End Props.

(** hypotheses are met: NLMS with only n given *)
Example C10_nlms_defaults :
  binds KNLMS (mkKw (Some 2%Z) None None None None None None None None None None false) 2 (1 # 10)%Q /\
  exists o, new_filter rng0 KNLMS (mkKw (Some 2%Z) None None None None None None None None None None false) = Ok o /\
    o_ext o = XNLMS (1 # 1000)%Q.
Proof.
  split.
  - repeat split. intros p; destruct p; simpl; discriminate.
  - eexists; split; vm_compute; reflexivity.
Qed.

(** C12: the documented call FilterLMS(n) does not work *)
Theorem C12_documented_FilterLMS_n_refuted : forall n,
  new_filter rng0 KLMS (mkKw (Some n) None None None None None None None None None None false) = Err TypeError.
Proof. reflexivity. Qed.
