(** C126: inputs that are multiples of one signal are one input (exact real arithmetic). *)
From Coq Require Import Reals Lra Psatz FunctionalExtensionality.
From Verif Require Import Py Num Numpy Filters Registry Spec StructProofs RunProofs Reach RVec RFilter Steps RMat PropsRun PropsStability PropsAlgebra PropsSymmetry PropsAP PropsAPConverge PropsRecursion PropsSilence PropsDead PropsRLSRate.
Open Scope R_scope.

(** ** Specification *)
(** the first entry a of the row becomes the two entries p a and q a *)
Definition spread (p q : R) (row : rvec) : rvec := match row with a :: r => p * a :: q * a :: r | [] => [] end.
(** the first entry is multiplied by rho *)
Definition boost (rho : R) (row : rvec) : rvec := match row with a :: r => rho * a :: r | [] => [] end.
(** the same settings for one input more, with the given start weights *)
Definition with_pair (n : nat) (s t : R) (v : rvec) (kw : kwargs R) : kwargs R :=
  mkKw (Some (Z.of_nat (S n))) (kw_mu kw) (Some (WVec (s :: t :: v))) (kw_eps kw) (kw_ro kw) (kw_a kw) (kw_lambd kw) (kw_alpha kw) (kw_order kw) (kw_ifc kw) (kw_mem kw) (kw_other kw).
(** the two weights that correspond to the weight z of the merged input: they go along (p, q), their component b across never changes *)
Definition unmerge (p q b : R) (row : rvec) : rvec :=
  match row with z :: r => (p * z - q * b) / sqrt (p ^ 2 + q ^ 2) :: (q * z + p * b) / sqrt (p ^ 2 + q ^ 2) :: r | [] => [] end.

Lemma sgn_pos rho a : 0 < rho -> Rsgn (rho * a) = Rsgn a.
Proof.
  intros H. destruct (Rtotal_order a 0) as [Ha|[->|Ha]].
  - assert (rho * a < 0) by nra. unfold Rsgn. repeat destruct Rlt_dec; lra.
  - rewrite Rmult_0_r. reflexivity.
  - assert (0 < rho * a) by nra. unfold Rsgn. repeat destruct Rlt_dec; lra.
Qed.
Lemma sgn_factor u a : u * Rsgn (u * a) = Rabs u * Rsgn a.
Proof.
  destruct (Rtotal_order u 0) as [Hu|[->|Hu]].
  - rewrite Rabs_left by exact Hu. replace (u * a) with (- u * - a) by ring. rewrite sgn_pos by lra. assert (E : Rsgn (- a) = - Rsgn a) by (unfold Rsgn; repeat destruct Rlt_dec; lra). rewrite E. ring.
  - rewrite Rabs_R0. ring.
  - rewrite Rabs_pos_eq, sgn_pos by lra. ring.
Qed.

Section S.
  Variable solve : list rvec -> list rvec -> option (list rvec).
  #[local] Hint Extern 0 (Num R) => exact (RNum solve) : typeclass_instances.
  Notation obj := (obj R).

  (** a rotation of the first two entries *)
  Definition rot2 (al be : R) (w : rvec) : rvec := match w with b :: z :: r => al * z - be * b :: be * z + al * b :: r | _ => w end.
  Lemma rot2_len al be w : length (rot2 al be w) = length w.
  Proof. destruct w as [|b [|z r]]; reflexivity. Qed.
  Lemma rot2_dot al be n u v : al ^ 2 + be ^ 2 = 1 -> length u = S (S n) -> length v = S (S n) -> Rdot (rot2 al be u) (rot2 al be v) = Rdot u v.
  Proof.
    intros H Lu Lv. destruct u as [|b [|z r]]; try discriminate Lu. destruct v as [|b' [|z' r']]; try discriminate Lv. cbn [rot2 Rdot].
    replace (b * b' + (z * z' + Rdot r r')) with ((al ^ 2 + be ^ 2) * (b * b' + z * z') + Rdot r r') by (rewrite H; ring). ring.
  Qed.
  Lemma rot2_add al be n u v : length u = S (S n) -> length v = S (S n) -> rot2 al be (vadd u v) = vadd (rot2 al be u) (rot2 al be v).
  Proof.
    intros Lu Lv. destruct u as [|b [|z r]]; try discriminate Lu. destruct v as [|b' [|z' r']]; try discriminate Lv.
    change (vadd (b :: z :: r) (b' :: z' :: r')) with (b + b' :: z + z' :: vadd r r'). cbn [rot2].
    match goal with |- _ = vadd (?a1 :: ?a2 :: _) (?b1 :: ?b2 :: _) => change (vadd (a1 :: a2 :: r) (b1 :: b2 :: r')) with (a1 + b1 :: a2 + b2 :: vadd r r') end.
    f_equal; [ring|]. f_equal. ring.
  Qed.
  Lemma rot2_sc al be c w : rot2 al be (vsc c w) = vsc c (rot2 al be w).
  Proof. destruct w as [|b [|z r]]; try reflexivity. cbn [rot2 vsc map]. f_equal; [ring|]. f_equal. ring. Qed.

  (** the object made from other weights of the same number *)
  Lemma new_other rng c (kw : kwargs R) n v v' (o : obj) : kw_n kw = Some (Z.of_nat n) -> length v' = length v ->
    new_filter rng c (with_weights kw v) = Ok o -> exists o', new_filter rng c (with_weights kw v') = Ok o'.
  Proof.
    intros Hn Hl. unfold new_filter. cbn [with_weights kw_other kw_n kw_mu kw_w]. rewrite Hn.
    destruct (kw_other kw); [discriminate|].
    replace (existsb (fun p => kw_given (with_weights kw v') p && negb (accepts c p)) all_params)
      with (existsb (fun p => kw_given (with_weights kw v) p && negb (accepts c p)) all_params) by reflexivity.
    destruct (existsb _ _); [discriminate|].
    match goal with |- match ?m with _ => _ end = _ -> _ => destruct m as [mu|]; [|discriminate] end.
    cbn [opt]. unfold init_base. destruct (Z.of_nat n =? -1)%Z; [discriminate|].
    unfold init_weights. rewrite Hl. destruct (Z.of_nat (length v) =? Z.of_nat n)%Z; [|discriminate].
    cbn [rmap rbind]. rewrite Nat2Z.id.
    replace (init_ext c (with_weights kw v') n mu) with (init_ext c (with_weights kw v) n mu) by (destruct c; reflexivity).
    destruct (init_ext c (with_weights kw v) n mu) as [x|]; [|discriminate]. intros _. eexists. reflexivity.
  Qed.
  Lemma with_weights_w rng c (kw : kwargs R) v (o : obj) : new_filter rng c (with_weights kw v) = Ok o -> o_w o = v.
  Proof.
    unfold new_filter. cbn [with_weights kw_other kw_n kw_mu kw_w]. destruct (kw_n kw) as [n|]; [|destruct (kw_other kw); [discriminate|]; destruct (existsb _ _); discriminate].
    destruct (kw_other kw); [discriminate|]. destruct (existsb _ _); [discriminate|].
    match goal with |- match ?m with _ => _ end = _ -> _ => destruct m as [mu|]; [|discriminate] end. cbn [opt].
    unfold init_base. destruct (_ =? -1)%Z; [discriminate|]. cbn [init_weights]. destruct (_ =? _)%Z; [|discriminate]. cbn [rbind rmap].
    destruct (init_ext _ _ _ _) as [x1|]; [|discriminate]. intros [= <-]. reflexivity.
  Qed.

  (** *** C126: two proportional inputs are one input *)
  Theorem C126_proportional : forall rng c (kw : kwargs R) n p q s t v (oz o oz' o' : obj) d x y e w yz ez wz,
    sign_class c = false -> 0 < p ^ 2 + q ^ 2 -> rng_ok rng -> sane_kw kw -> kw_n kw = Some (Z.of_nat n) ->
    (c = KAP -> good_solver solve) -> (c = KOCNLMS -> kw_mem kw <> Some 1%nat) ->
    let rho := sqrt (p ^ 2 + q ^ 2) in
    new_filter rng c (with_weights kw ((p * s + q * t) / rho :: v)) = Ok oz -> new_filter rng c (with_pair n s t v kw) = Ok o ->
    rows_of n x -> run d (map (boost rho) x) oz = (oz', Ok (yz, ez, wz)) -> run d (map (spread p q) x) o = (o', Ok (y, e, w)) ->
    y = yz /\ e = ez /\ w = map (unmerge p q ((p * t - q * s) / rho)) wz /\ o_w o' = unmerge p q ((p * t - q * s) / rho) (o_w oz').
  Proof.
    intros rng c kw n p q s t v oz o oz' o' d x y e w yz ez wz Hc Hpq Hrng Hkw Hn Hap Hoc rho Hoz Ho Hx HRz HR.
    assert (Hrho : 0 < rho) by (apply sqrt_lt_R0; exact Hpq). assert (Hrr : rho * rho = p ^ 2 + q ^ 2) by (apply sqrt_sqrt; lra).
    set (z := (p * s + q * t) / rho) in *. set (b := (p * t - q * s) / rho) in *. set (al := p / rho). set (be := q / rho).
    assert (Hab : al ^ 2 + be ^ 2 = 1) by (unfold al, be; replace ((p / rho) ^ 2 + (q / rho) ^ 2) with ((p ^ 2 + q ^ 2) / (rho * rho)) by (field; lra); rewrite Hrr; field; lra).
    pose proof (with_weights_w _ _ _ _ _ Hoz) as Wz.
    pose proof (new_filter_wf rng c (with_weights kw (z :: v)) n oz Hrng Hkw Hn Hoz) as Hwfz.
    assert (Ln : n = S (length v)) by (destruct Hwfz as (L & _); rewrite Wz in L; cbn [length] in L; congruence). subst n.
    (* the filter in between: a dead input in front *)
    set (kwm := widened (S (length v)) 0 b (z :: v) kw).
    assert (Ekw : with_pair (S (length v)) s t v kw = with_weights kwm (rot2 al be (b :: z :: v))).
    { unfold with_pair, with_weights, kwm, widened. cbn [kw_n kw_mu kw_eps kw_ro kw_a kw_lambd kw_alpha kw_order kw_ifc kw_mem kw_other rot2].
      do 3 f_equal. assert (E1 : al * z - be * b = s).
      { unfold al, be, z, b. replace (p / rho * ((p * s + q * t) / rho) - q / rho * ((p * t - q * s) / rho)) with ((p ^ 2 + q ^ 2) * s / (rho * rho)) by (field; lra). rewrite Hrr. field. lra. }
      assert (E2 : be * z + al * b = t).
      { unfold al, be, z, b. replace (q / rho * ((p * s + q * t) / rho) + p / rho * ((p * t - q * s) / rho)) with ((p ^ 2 + q ^ 2) * t / (rho * rho)) by (field; lra). rewrite Hrr. field. lra. }
      rewrite E1, E2. reflexivity. }
    rewrite Ekw in Ho.
    destruct (new_other rng c kwm (S (S (length v))) (rot2 al be (b :: z :: v)) (b :: z :: v) o eq_refl eq_refl Ho) as (om & Hom).
    assert (Hkwm : sane_kw kwm) by exact Hkw.
    set (xm := map (ins 0 0) (map (boost rho) x)).
    assert (Hxz : rows_of (S (length v)) (map (boost rho) x)).
    { apply Forall_map. refine (Forall_impl _ _ Hx). intros [|a r] Hr; cbn [boost length] in *; exact Hr. }
    assert (Hxm : rows_of (S (S (length v))) xm).
    { apply Forall_map. refine (Forall_impl _ _ Hxz). intros r Hr. cbv beta. rewrite ins_length. congruence. }
    assert (Ex : map (spread p q) x = map (rot2 al be) xm).
    { unfold xm. rewrite !map_map. apply map_ext_in. intros row Hin. pose proof (proj1 (Forall_forall _ _) Hx _ Hin) as Hlr. cbv beta in Hlr. destruct row as [|a r]; [discriminate Hlr|].
      cbn [boost spread]. change (ins 0 0 (rho * a :: r)) with (0 :: rho * a :: r). cbn [rot2]. f_equal; [unfold al; field; lra|]. f_equal. unfold be. field. lra. }
    rewrite Ex in HR.
    assert (TL : forall u : rvec, length u = S (S (length v)) -> length (rot2 al be u) = S (S (length v))) by (intros; rewrite rot2_len; assumption).
    assert (TD : forall u u' : rvec, length u = S (S (length v)) -> length u' = S (S (length v)) -> Rdot (rot2 al be u) (rot2 al be u') = Rdot u u') by (intros; apply (rot2_dot al be (length v)); assumption).
    assert (TA : forall u u' : rvec, length u = S (S (length v)) -> length u' = S (S (length v)) -> rot2 al be (vadd u u') = vadd (rot2 al be u) (rot2 al be u')) by (intros; apply (rot2_add al be (length v)); assumption).
    assert (TS : forall k (u : rvec), length u = S (S (length v)) -> rot2 al be (vsc k u) = vsc k (rot2 al be u)) by (intros; apply rot2_sc).
    assert (HRel : sym_rel solve (S (S (length v))) (rot2 al be) om o).
    { eapply (new_filter_T solve (S (S (length v))) (rot2 al be)); eauto. intros Hs; congruence. }
    pose proof (run_T solve (S (S (length v))) (rot2 al be) TL TD TA TS om o d xm HRel Hxm) as ET. rewrite HR in ET. cbn [snd] in ET.
    destruct (run d xm om) as (om' & r) eqn:Em. cbn [snd] in ET. destruct r as [((ym & em) & wm)|ex]; [|discriminate ET]. cbn [rmap] in ET. injection ET as -> -> ->.
    destruct (C112_dead_input solve rng c (with_weights kw (z :: v)) (S (length v)) 0 b oz om oz' om' d (map (boost rho) x) yz ez wz ym em wm Hrng Hkw Hn (Nat.le_0_l _) Hap Hoc Hoz) as (-> & -> & -> & HWm); [rewrite Wz; exact Hom|exact Hxz|exact HRz|exact Em|].
    split; [reflexivity|]. split; [reflexivity|].
    assert (Hun : forall row, length row = S (length v) -> rot2 al be (ins 0 b row) = unmerge p q b row).
    { intros [|z0 r] Hl; [discriminate Hl|]. change (ins 0 b (z0 :: r)) with (b :: z0 :: r). cbn [rot2 unmerge]. fold rho. f_equal; [unfold al, be; field; lra|]. f_equal. unfold al, be. field. lra. }
    destruct (run_lengths solve _ oz oz' d _ yz ez wz Hwfz Hxz HRz) as (Ldz & Hne & _ & _ & Lwz & _).
    split.
    - rewrite map_map. apply map_ext_in. intros row Hin. apply Hun. apply (In_nth _ _ []) in Hin. destruct Hin as (k & Hk & <-).
      pose proof (rows_len solve _ oz oz' d _ yz ez wz k Hwfz Hxz HRz ltac:(lia)) as HL. rewrite app_nth1 in HL by exact Hk. exact HL.
    - (* the final weights *)
      assert (Hwfm : wf (S (S (length v))) om) by apply HRel. assert (Hwfo : wf (S (S (length v))) o) by apply HRel.
      assert (Hxo : rows_of (S (S (length v))) (map (rot2 al be) xm)) by (apply Forall_map; refine (Forall_impl _ _ Hxm); intros r Hr; apply TL; exact Hr).
      destruct (run_lengths solve _ om om' d xm _ _ _ Hwfm Hxm Em) as (Ldm & Hnem & _ & _ & _ & _ & _ & _ & HOm & HWm').
      destruct (run_lengths solve _ o o' d _ _ _ _ Hwfo Hxo HR) as (_ & _ & _ & _ & _ & _ & _ & _ & _ & HWo').
      assert (HF : sym_rel solve (S (S (length v))) (rot2 al be) (fst (adapt_all d xm om)) (fst (adapt_all d (map (rot2 al be) xm) o))).
      { destruct (run_rel (S (S (length v))) (S (S (length v))) (sym_rel solve (S (S (length v))) (rot2 al be)) (fun _ _ => True) (fun a => a) (rot2 al be) (rot2 al be)) with (o1 := om) (o2 := o) (d := d) (x := xm) as (_ & H2); auto.
        - intros a a' (A & B & C & _); auto.
        - intros a a' d0 xk Haa Hl0 _. split; [auto|]. split; [eapply pred_out_T; eauto|]. eapply adapt_T; eauto.
        - rewrite map_id in H2. auto. }
      destruct HF as (_ & _ & HW & _). rewrite HWo', HW, <- HWm', HWm. apply Hun.
      pose proof (rows_len solve _ oz oz' d _ yz ez wz (length (map (boost rho) x)) Hwfz Hxz HRz (le_n _)) as HL. rewrite <- Lwz, nth_middle in HL. exact HL.
  Qed.

  (** *** a copy of an input: the same as the input multiplied by the square root of 2; the two weights share its weight equally *)
  Theorem C126_copy : forall rng c (kw : kwargs R) n t v (oz o oz' o' : obj) d x y e w yz ez wz,
    sign_class c = false -> rng_ok rng -> sane_kw kw -> kw_n kw = Some (Z.of_nat n) ->
    (c = KAP -> good_solver solve) -> (c = KOCNLMS -> kw_mem kw <> Some 1%nat) ->
    new_filter rng c (with_weights kw (sqrt 2 * t :: v)) = Ok oz -> new_filter rng c (with_pair n t t v kw) = Ok o ->
    rows_of n x -> run d (map (boost (sqrt 2)) x) oz = (oz', Ok (yz, ez, wz)) -> run d (map (spread 1 1) x) o = (o', Ok (y, e, w)) ->
    y = yz /\ e = ez /\ w = map (fun row => match row with z :: r => z / sqrt 2 :: z / sqrt 2 :: r | [] => [] end) wz.
  Proof.
    intros rng c kw n t v oz o oz' o' d x y e w yz ez wz Hc Hrng Hkw Hn Hap Hoc Hoz Ho Hx HRz HR.
    assert (H2 : 1 ^ 2 + 1 ^ 2 = 2) by ring. assert (Hs : 0 < sqrt 2) by (apply sqrt_lt_R0; lra). assert (Hss : sqrt 2 * sqrt 2 = 2) by (apply sqrt_sqrt; lra).
    destruct (C126_proportional rng c kw n 1 1 t t v oz o oz' o' d x y e w yz ez wz Hc ltac:(lra) Hrng Hkw Hn Hap Hoc) as (A & B & C & _); try assumption.
    - rewrite H2. replace ((1 * t + 1 * t) / sqrt 2) with (sqrt 2 * t); [exact Hoz|]. replace (1 * t + 1 * t) with (sqrt 2 * sqrt 2 * t) by (rewrite Hss; ring). field. lra.
    - rewrite H2. exact HRz.
    - split; [exact A|]. split; [exact B|]. rewrite C. apply map_ext. intros [|z r]; [reflexivity|]. cbn [unmerge]. rewrite H2.
      replace (1 * t - 1 * t) with 0 by ring. f_equal; [field; lra|]. f_equal. field. lra.
  Qed.

  (** *** SSLMS: the merged input is the absolute sum of the factors, not the root of the sum of squares *)
  Theorem C126_SSLMS : forall rng (kw : kwargs R) n p q s t v (oz o oz' o' : obj) d x y e w yz ez wz,
    p <> 0 \/ q <> 0 -> rng_ok rng -> sane_kw kw -> kw_n kw = Some (Z.of_nat n) ->
    let rho := Rabs p + Rabs q in
    new_filter rng KSSLMS (with_weights kw ((p * s + q * t) / rho :: v)) = Ok oz -> new_filter rng KSSLMS (with_pair n s t v kw) = Ok o ->
    rows_of n x -> run d (map (boost rho) x) oz = (oz', Ok (yz, ez, wz)) -> run d (map (spread p q) x) o = (o', Ok (y, e, w)) ->
    y = yz /\ e = ez.
  Proof.
    intros rng kw n p q s t v oz o oz' o' d x y e w yz ez wz Hpq Hrng Hkw Hn rho Hoz Ho Hx HRz HR.
    assert (Hrho : 0 < rho) by (unfold rho; pose proof (Rabs_pos p); pose proof (Rabs_pos q); destruct Hpq as [Hq|Hq]; apply Rabs_pos_lt in Hq; lra).
    set (z := (p * s + q * t) / rho) in *.
    pose proof (with_weights_w _ _ _ _ _ Hoz) as Wz.
    pose proof (new_filter_wf rng KSSLMS (with_weights kw (z :: v)) n oz Hrng Hkw Hn Hoz) as Hwfz.
    assert (Ln : n = S (length v)) by (destruct Hwfz as (L & _); rewrite Wz in L; cbn [length] in L; congruence). subst n.
    assert (Hkw' : sane_kw (with_pair (S (length v)) s t v kw)) by exact Hkw.
    assert (Wo : o_w o = s :: t :: v) by exact (with_weights_w rng KSSLMS (with_pair (S (length v)) s t v kw) (s :: t :: v) o Ho).
    pose proof (new_filter_wf rng KSSLMS _ (S (S (length v))) o Hrng Hkw' eq_refl Ho) as Hwf.
    assert (Hxz : rows_of (S (length v)) (map (boost rho) x)) by (apply Forall_map; refine (Forall_impl _ _ Hx); intros [|a r] Hr; exact Hr).
    assert (Hxo : rows_of (S (S (length v))) (map (spread p q) x)) by (apply Forall_map; refine (Forall_impl _ _ Hx); intros [|a r] Hr; [discriminate Hr|cbn [spread length] in *; congruence]).
    destruct (C65_run_follows_the_recursion solve rng KSSLMS _ _ o o' d _ y e w Hrng Hkw' eq_refl Ho ltac:(discriminate) ltac:(discriminate) Hxo HR) as (W0 & P).
    destruct (C65_run_follows_the_recursion solve rng KSSLMS _ _ oz oz' d _ yz ez wz Hrng (Hkw : sane_kw (with_weights kw (z :: v))) Hn Hoz ltac:(discriminate) ltac:(discriminate) Hxz HRz) as (Wz0 & Pz).
    rewrite map_length in P, Pz.
    destruct (run_lengths solve _ o o' _ _ y e w Hwf Hxo HR) as (Ld & _ & Ly & Le & _). destruct (run_lengths solve _ oz oz' _ _ yz ez wz Hwfz Hxz HRz) as (_ & _ & Lyz & Lez & _).
    rewrite map_length in *.
    set (W := fun k i => nth i (nth k (w ++ [o_w o']) []) 0) in *. set (X := fun k i => nth i (nth k (map (spread p q) x) []) 0) in *.
    set (Xz := fun k i => nth i (nth k (map (boost rho) x) []) 0) in *.
    set (V := fun k i => match i with 0%nat => (p * W k 0%nat + q * W k 1%nat) / rho | S j => W k (S (S j)) end).
    assert (HX : forall k, (k < length x)%nat -> exists a, X k 0%nat = p * a /\ X k 1%nat = q * a /\ Xz k 0%nat = rho * a /\ forall j, X k (S (S j)) = Xz k (S j)).
    { intros k Hk. unfold X, Xz. rewrite !(map_nth_lt _ _ _ []) by exact Hk. pose proof (nth_rows _ _ _ Hx Hk) as Lr. destruct (nth k x []) as [|a r]; [discriminate Lr|].
      exists a. repeat split. }
    assert (PV : published KSSLMS (with_weights kw (z :: v)) (S (length v)) (length x) (fun k => nth k d 0) Xz (fun k => nth k y 0) (fun k => nth k e 0) V).
    { unfold published in P |- *. cbv zeta in P |- *. destruct P as ((P1 & P2) & P3). split; [split; [exact P1|]|].
      - intros k Hk. cbv beta. rewrite P2 by exact Hk. destruct (HX k Hk) as (a & X0 & X1 & Z0 & XS). unfold dotn.
        change (S (S (length v))) with (2 + length v)%nat. change (S (length v)) with (1 + length v)%nat. rewrite !sumn_split. cbn [sumn]. rewrite X0, X1, Z0. unfold V at 1.
        f_equal; [field; lra|]. apply sumn_ext. intros j Hj. cbn [Nat.add]. rewrite XS. reflexivity.
      - intros k i Hk Hi. destruct (HX k Hk) as (a & X0 & X1 & Z0 & XS). replace (rate KSSLMS (with_weights kw (z :: v))) with (rate KSSLMS (with_pair (S (length v)) s t v kw)) by reflexivity.
        destruct i as [|j]; unfold V.
        + rewrite !P3 by lia. rewrite X0, X1, Z0. cbv beta.
          rewrite (sgn_pos rho a Hrho). set (mu := rate _ _). set (sg := Rsgn (nth k e 0)).
          replace ((p * (W k 0%nat + mu * Rsgn (p * a) * sg) + q * (W k 1%nat + mu * Rsgn (q * a) * sg)) / rho) with ((p * W k 0%nat + q * W k 1%nat) / rho + mu * (p * Rsgn (p * a) + q * Rsgn (q * a)) / rho * sg) by (field; lra).
          rewrite !sgn_factor. replace (Rabs p * Rsgn a + Rabs q * Rsgn a) with (rho * Rsgn a) by (unfold rho; ring). field. lra.
        + rewrite P3 by lia. rewrite XS. reflexivity. }
    destruct (C65_recursion_determines KSSLMS _ _ (length x) _ _ _ _ _ _ _ _ PV Pz) as (T1 & _).
    { intros i Hi. unfold V, W. rewrite W0, Wz0, Wo, Wz. destruct i as [|j]; reflexivity. }
    split; (apply (nth_ext _ _ 0 0); [congruence|]; intros k Hk; apply T1; lia).
  Qed.
End S.

(** ** The hypotheses can be met, for every class *)
Section Ok.
  #[local] Hint Extern 0 (Num R) => exact (RNum rsolve) : typeclass_instances.
  Notation obj := (obj R).
  Example C126_hypotheses : forall c z,
    rng_ok (T := R) zrng /\ sane_kw (rec_kw c) /\ good_solver rsolve /\ sqrt (3 ^ 2 + 4 ^ 2) = 5 /\ Rabs 3 + Rabs (-4) = 7 /\
    map (spread 3 4) [[1; 2]; [3; 4]] = [[3 * 1; 4 * 1; 2]; [3 * 3; 4 * 3; 4]] /\ map (boost 5) [[1; 2]; [3; 4]] = [[5 * 1; 2]; [5 * 3; 4]] /\
    (exists oz : obj, new_filter zrng c (with_weights (rec_kw c) [z; 1]) = Ok oz /\ forall rho, exists oz' r, run [1; 2] (map (boost rho) [[1; 2]; [3; 4]]) oz = (oz', Ok r)) /\
    (forall s t, exists o : obj, new_filter zrng c (with_pair 2 s t [1] (rec_kw c)) = Ok o /\ forall p q, exists o' r, run [1; 2] (map (spread p q) [[1; 2]; [3; 4]]) o = (o', Ok r)).
  Proof.
    intros c z. destruct (rec_new c 0) as (o0 & _ & Ho0 & _).
    assert (E0 : rec_kw c = with_weights (rec_kw c) [1; 1]) by reflexivity. rewrite E0 in Ho0.
    destruct (new_other rsolve zrng c (rec_kw c) 2 [1; 1] [z; 1] o0 eq_refl eq_refl Ho0) as (oz & Hoz).
    assert (HN : forall s t, exists o : obj, new_filter zrng c (with_pair 2 s t [1] (rec_kw c)) = Ok o).
    { intros s t. destruct c; try (eexists; reflexivity). unfold new_filter. cbn [with_pair rec_kw kw_other existsb all_params kw_given accepts andb negb orb given kw_n kw_mu kw_w opt].
      cbn. destruct (Reqb _ _) eqn:E; [|eexists; reflexivity]. exfalso. revert E. unfold Reqb. destruct (Req_EM_T _ _) as [E|]; [|discriminate].
      intros _. revert E. unfold Q2R. cbn. lra. }
    split; [intros k; apply repeat_length|]. split; [split; intros m E; destruct c; try discriminate E; injection E as <-; lia|]. split; [exact rsolve_good|].
    split; [replace (3 ^ 2 + 4 ^ 2) with (5 * 5) by ring; apply sqrt_square; lra|]. split; [rewrite Rabs_pos_eq by lra; rewrite Rabs_left by lra; lra|].
    split; [reflexivity|]. split; [reflexivity|]. split.
    - exists oz. split; [exact Hoz|]. intros rho.
      destruct (wide_runs c (with_weights (rec_kw c) [z; 1]) oz 2 [1; 2] (map (boost rho) [[1; 2]; [3; 4]])) as (_ & oz2 & y2 & e2 & w2 & E); auto; [repeat constructor|discriminate|]. eauto.
    - intros s t. destruct (HN s t) as (o & Ho). exists o. split; [exact Ho|]. intros p q.
      destruct (wide_runs c (with_pair 2 s t [1] (rec_kw c)) o 3 [1; 2] (map (spread p q) [[1; 2]; [3; 4]])) as (_ & o2 & y2 & e2 & w2 & E); auto; [repeat constructor|discriminate|]. eauto.
  Qed.
End Ok.
