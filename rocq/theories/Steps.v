(** One adapt call of every class that keeps attributes between samples, as an explicit value; any
    arithmetic.  (Consequences of the model, used by the algebraic proofs.) *)
From Coq Require Import QArith.
From Verif Require Import Py Num Numpy Filters Registry Spec StructProofs RunProofs Reach.
Open Scope nat_scope.

Section Steps.
  Context {T : Type} {NT : Num T}.
  Notation vec := (list T).
  Notation mat := (list (list T)).
  Notation obj := (obj T).

  Lemma adapt_plain n (o : obj) d x o1 dw :
    wf n o -> length x = n -> is_AP o = false -> is_OCNLMS o = false ->
    learning_rule (nsub d (ndot (o_w o) x)) x o = (o1, Ok dw) -> o_w o1 = o_w o -> length dw = n ->
    adapt d x o = (set_w (map2 nadd (o_w o) dw) o1, Ok tt).
  Proof.
    intros (Hw & Hn & Hx) Hl Hap Hoc E Hw1 Hdw.
    unfold adapt; unfold bind at 1, get at 1; rewrite Hap. unfold adapt_base, bind.
    rewrite predict_plain by assumption. rewrite vdot_ok by congruence. rewrite E.
    rewrite (iadd_w_ok n); [|congruence|assumption]. rewrite Hw1; reflexivity.
  Qed.

  (** *** GNGD *)
  Definition gngd_eps (mu eps ro le e : T) (lx x : vec) : T :=
    nsub eps (ndiv (nmul (nmul (nmul (nmul ro mu) e) le) (ndot x lx))
                   (npown (nadd (ndot lx lx) eps) 2)).

  Lemma adapt_GNGD n (o : obj) d x eps ro le lx :
    wf n o -> length x = n -> o_ext o = XGNGD eps ro le lx ->
    let e := nsub d (ndot (o_w o) x) in
    let eps' := gngd_eps (o_mu o) eps ro le e lx x in
    adapt d x o =
      (set_w (map2 nadd (o_w o) (vscale (nmul (ndiv (o_mu o) (nadd eps' (ndot x x))) e) x))
             (set_ext (XGNGD eps' ro e x) o), Ok tt).
  Proof.
    intros Hwf Hl E e eps'. pose proof Hwf as (_ & _ & Hx); rewrite E in Hx; simpl in Hx.
    apply (adapt_plain n).
    - exact Hwf.
    - exact Hl.
    - unfold is_AP; rewrite E; reflexivity.
    - unfold is_OCNLMS; rewrite E; reflexivity.
    - unfold learning_rule, bind, get, lift, modify, ret; rewrite E. rewrite vdot_ok by congruence. reflexivity.
    - reflexivity.
    - rewrite vscale_length; exact Hl.
  Qed.

  (** *** RLS *)
  Definition rls_R (mu : T) (R : mat) (x : vec) : mat :=
    let k := length x in
    let R2 := nadd mu (ndot (map (fun c => ndot x c) (transpose k R)) x) in
    mscale (ndiv n1 mu)
      (map2 (map2 (fun r r1 => nsub r (ndiv r1 R2))) R (mm k (mm k R (outer x x)) R)).

  Lemma rls_R_shape mu n R x : length R = n -> rowsl n R -> length x = n ->
    length (rls_R mu R x) = n /\ rowsl n (rls_R mu R x).
  Proof.
    intros H1 H2 H3; unfold rls_R; rewrite H3; split.
    - rewrite mscale_length. apply map2_length_eq; [auto|rewrite !mm_length; auto].
    - apply mscale_rows, map2_rows; [assumption | apply mm_rows].
  Qed.

  Lemma adapt_RLS n (o : obj) d x eps R :
    wf n o -> length x = n -> o_ext o = XRLS eps R -> neqb (o_mu o) n0 = false ->
    let e := nsub d (ndot (o_w o) x) in
    let R' := rls_R (o_mu o) R x in
    adapt d x o =
      (set_w (map2 nadd (o_w o) (map (fun a => nmul a e) (mv R' x))) (set_ext (XRLS eps R') o), Ok tt).
  Proof.
    intros Hwf Hl E Hmu e R'. pose proof Hwf as (_ & _ & Hx); rewrite E in Hx; simpl in Hx.
    destruct Hx as (HR1 & HR2); apply rect_Forall in HR2 as HR2'.
    apply (adapt_plain n).
    - exact Hwf.
    - exact Hl.
    - unfold is_AP; rewrite E; reflexivity.
    - unfold is_OCNLMS; rewrite E; reflexivity.
    - unfold learning_rule; unfold bind at 1, get at 1; rewrite E.
      unfold R', rls_R. rewrite Hl, HR1, Nat.eqb_refl, HR2'. cbn [andb]. rewrite Hmu. reflexivity.
    - reflexivity.
    - rewrite map_length, mv_length. destruct (rls_R_shape (o_mu o) n R x HR1 HR2 Hl) as (Hlen & _). exact Hlen.
  Qed.

  Lemma adapt_RLS_mu0 n (o : obj) d x eps R :
    wf n o -> length x = n -> o_ext o = XRLS eps R -> neqb (o_mu o) n0 = true ->
    adapt d x o = (o, Err ZeroDivisionError).
  Proof.
    intros Hwf Hl E Hmu. pose proof Hwf as (Hw & _ & Hx); rewrite E in Hx; simpl in Hx.
    destruct Hx as (HR1 & HR2); apply rect_Forall in HR2 as HR2'.
    unfold adapt; unfold bind at 1, get at 1; unfold is_AP; rewrite E. unfold adapt_base, bind.
    rewrite predict_plain by (unfold is_OCNLMS; rewrite E; reflexivity). rewrite vdot_ok by congruence.
    unfold learning_rule; unfold bind, get; rewrite E. rewrite Hl, HR1, Nat.eqb_refl, HR2'. cbn [andb]. rewrite Hmu.
    reflexivity.
  Qed.

  (** *** variable step-size LMS *)
  Lemma adapt_Ang n (o : obj) d x ro a le lx lf lm :
    wf n o -> length x = n -> o_ext o = XAng ro a le lx lf lm ->
    let e := nsub d (ndot (o_w o) x) in
    let fi := map2 nadd (vscale a lf) (vscale le lx) in
    let mu' := nadd lm (nmul (nmul ro e) (ndot lx fi)) in
    adapt d x o =
      (set_w (map2 nadd (o_w o) (vscale (nmul mu' e) x)) (set_ext (XAng ro a e x fi mu') o), Ok tt).
  Proof.
    intros Hwf Hl E e fi mu'. pose proof Hwf as (_ & _ & Hx); rewrite E in Hx; simpl in Hx.
    destruct Hx as (Hlx & Hlf).
    assert (Hfi : length fi = n) by (apply map2_length_eq; rewrite vscale_length; auto).
    apply (adapt_plain n).
    - exact Hwf.
    - exact Hl.
    - unfold is_AP; rewrite E; reflexivity.
    - unfold is_OCNLMS; rewrite E; reflexivity.
    - unfold learning_rule, bind, get, lift, modify, ret; rewrite E.
      unfold bc_add. rewrite bc_eq by (rewrite !vscale_length; congruence). fold fi.
      rewrite vdot_ok by congruence. reflexivity.
    - reflexivity.
    - rewrite vscale_length; exact Hl.
  Qed.

  Definition ben_fi (n : nat) (lm le : T) (lx lf : vec) : vec :=
    map2 nadd (mv (map2 (map2 nsub) (identity n) (mscale lm (outer lx lx))) lf) (vscale le lx).

  Lemma ben_fi_length n lm le lx lf : length lx = n -> length (ben_fi n lm le lx lf) = n.
  Proof.
    intros H; unfold ben_fi. apply map2_length_eq; [|rewrite vscale_length; auto].
    rewrite mv_length. apply map2_length_eq; [apply identity_length|rewrite mscale_length, outer_length; auto].
  Qed.

  Lemma adapt_Benveniste n (o : obj) d x ro le lx lf lm :
    wf n o -> length x = n -> o_ext o = XBenveniste ro le lx lf lm ->
    let e := nsub d (ndot (o_w o) x) in
    let fi := ben_fi n lm le lx lf in
    let mu' := nadd lm (nmul (nmul ro e) (ndot lx fi)) in
    adapt d x o =
      (set_w (map2 nadd (o_w o) (vscale (nmul mu' e) x)) (set_ext (XBenveniste ro e x fi mu') o), Ok tt).
  Proof.
    intros Hwf Hl E e fi mu'. pose proof Hwf as (_ & Hn & Hx); rewrite E in Hx; simpl in Hx.
    destruct Hx as (Hlx & Hlf).
    apply (adapt_plain n).
    - exact Hwf.
    - exact Hl.
    - unfold is_AP; rewrite E; reflexivity.
    - unfold is_OCNLMS; rewrite E; reflexivity.
    - unfold learning_rule, bind, get, lift, modify, ret; rewrite E. rewrite Hn.
      assert (HrO : rowsl n (mscale lm (outer lx lx))).
      { apply mscale_rows. pose proof (outer_rows lx lx) as Ho; rewrite Hlx in Ho; exact Ho. }
      rewrite (bc_sub2_ok _ _ n); auto using identity_rows.
      2:{ rewrite identity_length, mscale_length, outer_length; congruence. }
      assert (HlF : length (map2 (map2 nsub) (identity n) (mscale lm (outer lx lx))) = n).
      { apply map2_length_eq; [apply identity_length|]. rewrite mscale_length, outer_length; auto. }
      rewrite sqdot_ok by (rewrite Hlf; first [exact HlF | apply map2_rows; auto using identity_rows]).
      unfold bc_add. rewrite bc_eq.
      2:{ rewrite mv_length, vscale_length, Hlx. apply map2_length_eq; [apply identity_length|].
          rewrite mscale_length, outer_length; auto. }
      rewrite vdot_ok by (rewrite Hlx; symmetry; apply (ben_fi_length n); auto). reflexivity.
    - reflexivity.
    - rewrite vscale_length; exact Hl.
  Qed.

  Lemma adapt_Mathews n (o : obj) d x ro le lx lm :
    wf n o -> length x = n -> o_ext o = XMathews ro le lx lm ->
    let e := nsub d (ndot (o_w o) x) in
    let mu' := nadd lm (nmul (nmul (nmul ro e) le) (ndot lx x)) in
    adapt d x o =
      (set_w (map2 nadd (o_w o) (vscale (nmul mu' e) x)) (set_ext (XMathews ro e x mu') o), Ok tt).
  Proof.
    intros Hwf Hl E e mu'. pose proof Hwf as (_ & _ & Hx); rewrite E in Hx; simpl in Hx.
    apply (adapt_plain n).
    - exact Hwf.
    - exact Hl.
    - unfold is_AP; rewrite E; reflexivity.
    - unfold is_OCNLMS; rewrite E; reflexivity.
    - unfold learning_rule, bind, get, lift, modify, ret; rewrite E. rewrite vdot_ok by congruence. reflexivity.
    - reflexivity.
    - rewrite vscale_length; exact Hl.
  Qed.

  (** *** OCNLMS *)
  (** what read_memory returns, and the next (index, empty flag) *)
  Definition oc_read (n : nat) (em : bool) (mx : mat) (md : vec) (idx : nat) : T * vec :=
    if em then
      if idx =? 0 then (n0, zeros n)
      else (mean (firstn idx md), mean0 n (firstn (idx + 1) mx))
    else (mean (delete idx md), mean0 n mx).
  Definition oc_idx (mem idx : nat) : nat := if mem - 1 <? idx + 1 then 0 else idx + 1.
  Definition oc_em (mem : nat) (em : bool) (idx : nat) : bool := if mem - 1 <? idx + 1 then false else em.

  Lemma oc_idx_lt mem idx : 1 <= mem -> oc_idx mem idx < mem.
  Proof. unfold oc_idx; destruct (Nat.ltb_spec (mem - 1) (idx + 1)); lia. Qed.

  Lemma read_memory_eq n (o : obj) eps mem em mx md idx :
    wf n o -> o_ext o = XOCNLMS eps mem em mx md idx ->
    read_memory o = (set_ext (XOCNLMS eps mem (oc_em mem em idx) mx md (oc_idx mem idx)) o,
                     Ok (oc_read n em mx md idx)).
  Proof.
    intros (Hw & Hn & Hx) E; rewrite E in Hx; simpl in Hx.
    destruct Hx as (Hm & Hlx & Hr & Hld & Hi).
    pose proof (mem_cols _ _ _ Hm Hlx Hr) as Hc.
    unfold read_memory, bind, get, ret, modify, raise. rewrite E, Hc, Hlx, Hn.
    unfold oc_read, oc_em, oc_idx.
    destruct em; [destruct (idx =? 0)|rewrite Hld; replace (idx <? mem) with true by (symmetry; apply Nat.ltb_lt; lia)];
      destruct (mem - 1 <? idx + 1); reflexivity.
  Qed.

  Lemma oc_read_length n em mx md idx : length (snd (oc_read n em mx md idx)) = n.
  Proof.
    unfold oc_read; destruct em; [destruct (idx =? 0)|]; simpl;
      [apply zeros_length|apply mean0_length|apply mean0_length].
  Qed.

  Definition oc_y (n : nat) (w : vec) (em : bool) (mx : mat) (md : vec) (idx : nat) (x : vec) : T :=
    nadd (ndot w (map2 nsub x (snd (oc_read n em mx md idx)))) (fst (oc_read n em mx md idx)).

  Lemma predict_OCNLMS n (o : obj) x eps mem em mx md idx :
    wf n o -> length x = n -> o_ext o = XOCNLMS eps mem em mx md idx ->
    predict x o = (set_ext (XOCNLMS eps mem (oc_em mem em idx) mx md (oc_idx mem idx)) o,
                   Ok (oc_y n (o_w o) em mx md idx x)).
  Proof.
    intros Hwf Hl E. unfold predict; unfold bind at 1, get at 1; rewrite E.
    unfold bind at 1; rewrite (read_memory_eq n o eps mem em mx md idx Hwf E).
    unfold oc_y. pose proof (oc_read_length n em mx md idx) as Hr.
    destruct (oc_read n em mx md idx) as [m_d m_x]; cbn [fst snd] in *.
    unfold bind, lift, bc_sub, get, ret. rewrite bc_eq by congruence. cbn [set_ext o_w].
    rewrite vdot_ok; [reflexivity|]. destruct Hwf as (Hw & _).
    rewrite Hw; symmetry; apply map2_length_eq; auto.
  Qed.

  Lemma adapt_OCNLMS n (o : obj) d x eps mem em mx md idx :
    wf n o -> length x = n -> o_ext o = XOCNLMS eps mem em mx md idx ->
    let y := oc_y n (o_w o) em mx md idx x in
    let e := nsub d y in
    let i1 := oc_idx mem idx in let em1 := oc_em mem em idx in
    let mx1 := set_nth i1 x mx in
    let y1 := oc_y n (o_w o) em1 mx1 md i1 x in
    let dx := map2 nsub x (snd (oc_read n em1 mx1 md i1)) in
    adapt d x o =
      (set_w (map2 nadd (o_w o) (vscale (nmul (ndiv (o_mu o) (nadd eps (ndot dx dx))) e) dx))
             (set_ext (XOCNLMS eps mem (oc_em mem em1 i1) mx1 (set_nth i1 (nadd e y1) md) (oc_idx mem i1)) o),
       Ok tt).
  Proof.
    intros Hwf Hl E y e i1 em1 mx1 y1 dx.
    pose proof Hwf as (Hw & Hn & Hx); rewrite E in Hx; simpl in Hx.
    destruct Hx as (Hm & Hlx & Hr & Hld & Hi).
    assert (Hi1 : i1 < mem) by (apply oc_idx_lt; auto).
    unfold adapt; unfold bind at 1, get at 1; unfold is_AP; rewrite E. unfold adapt_base.
    unfold bind at 1. rewrite (predict_OCNLMS n o x eps mem em mx md idx Hwf Hl E). fold i1 em1 y e.
    set (o1 := set_ext (XOCNLMS eps mem em1 mx md i1) o).
    assert (Hlr : learning_rule e x o1 =
      (set_ext (XOCNLMS eps mem (oc_em mem em1 i1) mx1 (set_nth i1 (nadd e y1) md) (oc_idx mem i1)) o,
       Ok (vscale (nmul (ndiv (o_mu o) (nadd eps (ndot dx dx))) e) dx))).
    { unfold learning_rule; unfold bind at 1, get at 1.
      change (o_ext o1) with (XOCNLMS eps mem em1 mx md i1). cbv iota zeta.
      assert (Hux : update_memory_x x o1 = (set_ext (XOCNLMS eps mem em1 mx1 md i1) o1, Ok tt)).
      { unfold o1, update_memory_x, bind, get, ret, modify. cbn [set_ext o_ext].
        replace (i1 <? length mx) with true by (symmetry; apply Nat.ltb_lt; lia).
        rewrite (nth_rows n) by (auto; lia). rewrite Hl, Nat.eqb_refl. reflexivity. }
      unfold bind at 1. rewrite Hux. clear Hux.
      set (o2 := set_ext (XOCNLMS eps mem em1 mx1 md i1) o1).
      assert (Hwf2 : wf n o2).
      { split; [exact Hw|]. split; [exact Hn|]. cbn [o2 set_ext o_ext wf_ext]. unfold mx1.
        rewrite set_nth_length. repeat split; auto. apply set_nth_Forall; auto. }
      unfold bind at 1. rewrite (read_memory_eq n o2 eps mem em1 mx1 md i1 Hwf2 eq_refl).
      unfold y1, oc_y. unfold dx. pose proof (oc_read_length n em1 mx1 md i1) as Hrl.
      destruct (oc_read n em1 mx1 md i1) as [m_d m_x]; cbn [fst snd] in *.
      unfold bind at 1, lift at 1. unfold bc_sub. rewrite bc_eq by congruence.
      unfold bind at 1, get at 1, bind at 1, lift at 1. cbn [o2 set_ext o_w o_ext o_mu].
      rewrite vdot_ok.
      2:{ transitivity n; [exact Hw|symmetry; apply map2_length_eq; auto]. }
      unfold update_memory_d; unfold bind at 1, bind at 1, get at 1. cbn [set_ext o_ext].
      assert (Hidx : (if oc_idx mem i1 =? 0 then length md - 1 else oc_idx mem i1 - 1) = i1).
      { unfold oc_idx at 1 2. rewrite Hld. destruct (Nat.ltb_spec (mem - 1) (i1 + 1)); simpl; [lia|].
        destruct (Nat.eqb_spec (i1 + 1) 0); lia. }
      rewrite Hidx. replace (i1 <? length md) with true by (symmetry; apply Nat.ltb_lt; lia).
      reflexivity. }
    unfold bind. rewrite Hlr. rewrite (iadd_w_ok n); [reflexivity|exact Hw|].
    rewrite vscale_length. unfold dx. apply map2_length_eq; auto. apply oc_read_length.
  Qed.

  (** *** AP *)
  Lemma adapt_AP_step n (o : obj) d x order xm dm ii id ym em :
    wf n o -> length x = n -> o_ext o = XAP order xm dm ii id ym em ->
    let xm' := push_x order xm x in
    let dm' := push_d order dm d in
    let y := mv (transpose order xm') (o_w o) in
    let e := map2 nsub dm' y in
    let o1 := set_ext (XAP order xm' dm' ii id y e) o in
    adapt d x o =
      match nsolve (map2 (map2 nadd) (mm order (transpose order xm') xm') ii) id with
      | Some G => (set_w (map2 nadd (o_w o) (vscale (o_mu o) (mv xm' (mv G e)))) o1, Ok tt)
      | None => (o1, Err LinAlgError)
      end.
  Proof.
    intros Hwf Hl E xm' dm' y e o1.
    unfold adapt; unfold bind at 1, get at 1. unfold is_AP; rewrite E.
    rewrite (adapt_AP_eq n o d x Hwf Hl) by (unfold is_AP; rewrite E; reflexivity).
    unfold ap_next; rewrite E. fold xm' dm'. fold y. fold e. cbn [set_ext o_ext].
    unfold ap_learning_rule. fold o1. destruct (nsolve _ _); reflexivity.
  Qed.

  (** output of a state: all classes but OCNLMS and AP *)
  Lemma pred_out_plain n (o : obj) x : wf n o -> length x = n -> is_AP o = false -> is_OCNLMS o = false ->
    pred_out o x = ndot (o_w o) x.
  Proof.
    intros (Hw & _) Hl Hap Hoc. unfold pred_out; rewrite Hap, predict_plain by assumption.
    rewrite vdot_ok by congruence; reflexivity.
  Qed.

  Lemma pred_out_OCNLMS n (o : obj) x eps mem em mx md idx :
    wf n o -> length x = n -> o_ext o = XOCNLMS eps mem em mx md idx ->
    pred_out o x = oc_y n (o_w o) em mx md idx x.
  Proof.
    intros Hwf Hl E. unfold pred_out, is_AP; rewrite E.
    rewrite (predict_OCNLMS n o x eps mem em mx md idx Hwf Hl E). reflexivity.
  Qed.

  (** ** Simulations: two filters stepping together *)
  Lemma run_rel n1 n2 (Rel : obj -> obj -> Prop) (P : T -> vec -> Prop) (fd : T -> T) (fx : vec -> vec) (fw : vec -> vec) :
    (forall o1 o2, Rel o1 o2 -> wf n1 o1 /\ wf n2 o2 /\ o_w o2 = fw (o_w o1)) ->
    (forall o1 o2 d x, Rel o1 o2 -> length x = n1 -> P d x ->
       length (fx x) = n2 /\
       pred_out o2 (fx x) = fd (pred_out o1 x) /\
       snd (adapt (fd d) (fx x) o2) = snd (adapt d x o1) /\
       (snd (adapt d x o1) = Ok tt -> Rel (fst (adapt d x o1)) (fst (adapt (fd d) (fx x) o2)))) ->
    (forall a b, nsub (fd a) (fd b) = fd (nsub a b)) ->
    forall o1 o2 d x, Rel o1 o2 -> rowsl n1 x -> length d = length x -> x <> [] ->
    (forall k, k < length x -> P (nth k d n0) (nth k x [])) ->
    snd (run (map fd d) (map fx x) o2) =
      rmap (fun '(y, e, w) => (map fd y, map fd e, map fw w)) (snd (run d x o1)) /\
    (snd (adapt_all d x o1) = Ok tt -> Rel (fst (adapt_all d x o1)) (fst (adapt_all (map fd d) (map fx x) o2))).
  Proof.
    intros Hwf Hstep Hsub o1 o2 d x HR Hx Hl Hne HP.
    assert (Hall : forall d x, length d = length x -> rowsl n1 x ->
      (forall k, k < length x -> P (nth k d n0) (nth k x [])) -> forall o1 o2, Rel o1 o2 ->
      snd (adapt_all (map fd d) (map fx x) o2) = snd (adapt_all d x o1) /\
      (snd (adapt_all d x o1) = Ok tt ->
         Rel (fst (adapt_all d x o1)) (fst (adapt_all (map fd d) (map fx x) o2)) /\
         ytrace (map fd d) (map fx x) o2 = map fd (ytrace d x o1) /\
         wtrace (map fd d) (map fx x) o2 = map fw (wtrace d x o1))).
    { clear - Hwf Hstep. intros d; induction d as [|d0 d IH]; intros [|x0 x] Hl Hx HP o1 o2 HR; try discriminate; simpl in Hl.
      - split; [reflexivity|]. intros _; split; [exact HR|split; reflexivity].
      - inversion Hx as [|? ? Hx0 Hx']; subst.
        destruct (Hstep o1 o2 d0 x0 HR eq_refl) as (Hlx & Hp & Hs & Hr).
        { apply (HP 0); simpl; lia. }
        destruct (Hwf o1 o2 HR) as (_ & _ & Hw).
        cbn [map adapt_all ytrace wtrace]. unfold bind.
        destruct (adapt d0 x0 o1) as [o1' r1]; destruct (adapt (fd d0) (fx x0) o2) as [o2' r2].
        cbn [fst snd] in *. subst r2. destruct r1 as [[]|ex]; [|split; [reflexivity|discriminate]].
        destruct (IH x ltac:(lia) Hx') with (o1 := o1') (o2 := o2') as (H1 & H2).
        { intros k Hk; apply (HP (S k)); simpl; lia. } { auto. }
        split; [exact H1|]. intros HO; destruct (H2 HO) as (A & B & C).
        split; [exact A|]. rewrite B, C, Hp, Hw; split; reflexivity. }
    destruct (Hall d x Hl Hx HP o1 o2 HR) as (H1 & H2).
    split; [|intros HO; apply H2, HO].
    destruct (Hwf o1 o2 HR) as (Hwf1 & Hwf2 & _).
    destruct (run_eq n1 o1 d x Hwf1 Hx Hl Hne) as (h1 & -> & _).
    assert (Hx2 : rowsl n2 (map fx x)).
    { apply Forall_map. apply Forall_forall; intros r Hr.
      apply (In_nth _ _ []) in Hr as (k & Hk & <-).
      destruct (Hstep o1 o2 (nth k d n0) (nth k x []) HR) as (Hlx & _); auto. apply nth_rows; auto. }
    destruct (run_eq n2 o2 (map fd d) (map fx x) Hwf2 Hx2) as (h2 & -> & _).
    { rewrite !map_length; auto. } { destruct x; [congruence|discriminate]. }
    cbn [snd]. rewrite H1. destruct (snd (adapt_all d x o1)) as [[]|ex]; [|reflexivity].
    destruct (H2 eq_refl) as (_ & -> & ->). cbn [rmap]. do 2 f_equal. f_equal.
    generalize (ytrace d x o1) as yy. clear -Hsub.
    induction d as [|a d IH]; intros [|b yy]; simpl; auto. rewrite Hsub, IH; reflexivity.
  Qed.

  (** final filters of related runs *)
  Lemma run_fst n (o : obj) d x : wf n o -> rowsl n x -> length d = length x -> x <> [] ->
    exists h, fst (run d x o) = set_hist h (fst (adapt_all d x o)).
  Proof. intros H1 H2 H3 H4; destruct (run_eq n o d x H1 H2 H3 H4) as (h & -> & _); exists h; reflexivity. Qed.

  Lemma run_snd n (o : obj) d x : wf n o -> rowsl n x -> length d = length x -> x <> [] ->
    snd (run d x o) = rmap (fun _ => (ytrace d x o, map2 nsub d (ytrace d x o), wtrace d x o)) (snd (adapt_all d x o)).
  Proof. intros H1 H2 H3 H4; destruct (run_eq n o d x H1 H2 H3 H4) as (h & -> & _); auto. Qed.

  (** an invariant of the filter that determines its weights and outputs *)
  Lemma run_inv n (Inv : obj -> Prop) (P : T -> vec -> Prop) :
    (forall o d x, Inv o -> wf n o -> length x = n -> P d x -> snd (adapt d x o) = Ok tt -> Inv (fst (adapt d x o))) ->
    forall d x (o : obj), Inv o -> wf n o -> rowsl n x -> length d = length x ->
    (forall k, k < length x -> P (nth k d n0) (nth k x [])) ->
    snd (adapt_all d x o) = Ok tt ->
    forall k, k <= length x -> Inv (state_after k d x o) /\ wf n (state_after k d x o).
  Proof.
    intros Hstep d; induction d as [|d0 d IH]; intros [|x0 x] o HI Hwf Hx Hl HP HO k Hk; try discriminate; simpl in Hl.
    - unfold state_after; rewrite !firstn_nil; simpl; auto.
    - apply adapt_all_Ok_cons in HO as (H1 & H2 & _). inversion Hx as [|? ? Hx0 Hx']; subst.
      destruct k as [|k]; [unfold state_after; simpl; auto|].
      destruct (adapt_ok _ o d0 x0 Hwf eq_refl) as (o1 & r1 & E1 & Hwf1 & _).
      rewrite E1 in H1, H2; cbn [fst snd] in H1, H2. subst r1.
      assert (HI1 : Inv o1).
      { specialize (Hstep o d0 x0 HI Hwf eq_refl (HP 0 ltac:(simpl; lia))). rewrite E1 in Hstep; auto. }
      specialize (IH x o1 HI1 Hwf1 Hx' ltac:(lia)).
      unfold state_after in *. cbn [firstn adapt_all]. unfold bind; rewrite E1. apply IH; auto.
      + intros j Hj; apply (HP (S j)); simpl; lia.
      + simpl in Hk; lia.
  Qed.
End Steps.
