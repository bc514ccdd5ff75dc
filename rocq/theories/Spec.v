(** Small specification vocabulary for the filter properties, in terms of the public API only
    (constructor, adapt, run, predict, pretrained_run). *)
From Coq Require Import QArith.
From Verif Require Import Py Num Numpy Filters Registry.
Open Scope nat_scope.

Section Spec.
  Context {T : Type} {NT : Num T}.
  Notation vec := (list T).
  Notation mat := (list (list T)).
  Notation obj := (obj T).

  (** a data matrix with n columns *)
  Definition rows_of (n : nat) (x : mat) : Prop := Forall (fun r => length r = n) x.

  (** the user's loop [for k in range(len(d)): f.adapt(d[k], x[k])]; an exception stops it *)
  Fixpoint adapt_all (ds : vec) (xs : mat) : M obj unit :=
    match ds, xs with
    | d :: ds', x :: xs' => bind (adapt d x) (fun _ => adapt_all ds' xs')
    | _, _ => ret tt
    end.

  (** the documented real-time loop: y = f.predict(x[k]); f.adapt(d[k], x[k]); log y *)
  Fixpoint online_loop (ds : vec) (xs : mat) : M obj vec :=
    match ds, xs with
    | d :: ds', x :: xs' =>
        bind (predict x) (fun y =>
        bind (adapt d x) (fun _ =>
        bind (online_loop ds' xs') (fun ys => ret (y :: ys))))
    | _, _ => ret []
    end.

  (** the filter after the first k samples of (d, x), starting from o *)
  Definition state_after (k : nat) (d : vec) (x : mat) (o : obj) : obj :=
    fst (adapt_all (firstn k d) (firstn k x) o).

  (** two filters that agree on everything except the recorded history attribute *)
  Definition same_filter (o1 o2 : obj) : Prop :=
    o_w o1 = o_w o2 /\ o_n o1 = o_n o2 /\ o_mu o1 = o_mu o2 /\ o_ext o1 = o_ext o2.

  (** both calls succeed, or both raise the same exception *)
  Definition same_outcome {A B} (r1 : result A) (r2 : result B) : Prop :=
    match r1, r2 with
    | Ok _, Ok _ => True
    | Err a, Err b => a = b
    | _, _ => False
    end.

  (** np.dot(u, v) = np.dot(v, u) *)
  Definition dot_commutes : Prop := forall u v : vec, ndot u v = ndot v u.

  Definition is_OCNLMS (o : obj) : bool :=
    match o_ext o with XOCNLMS _ _ _ _ _ _ => true | _ => false end.

  (** the only exceptions that well-shaped calls can raise: a singular system in AP's np.linalg.solve,
      Python's 1 / 0 in RLS with mu = 0 *)
  Definition soft_exn (o : obj) (x : exn) : Prop :=
    match o_ext o with
    | XAP _ _ _ _ _ _ _ => x = LinAlgError
    | XRLS _ _ => x = ZeroDivisionError /\ neqb (o_mu o) n0 = true
    | _ => False
    end.

  (** ** Histories of calls *)
  Inductive op : Type :=
  | OpPredict (x : vec)
  | OpAdapt (d : T) (x : vec)
  | OpRun (d : vec) (x : mat)
  | OpPretrained (d : vec) (x : mat) (ntrain : T) (epochs : nat).

  (** the filter after the call, whether it returned or raised *)
  Definition exec (p : op) (o : obj) : obj :=
    match p with
    | OpPredict x => fst (predict x o)
    | OpAdapt d x => fst (adapt d x o)
    | OpRun d x => fst (run d x o)
    | OpPretrained d x nt ep => fst (pretrained_run d x nt ep o)
    end.

  (** what a call gives back to the caller *)
  Inductive outv : Type := VNone | VNum (y : T) | VRun (y e : vec) (w : mat).
  Definition outcome (p : op) (o : obj) : result outv :=
    match p with
    | OpPredict x => rmap VNum (snd (predict x o))
    | OpAdapt d x => rmap (fun _ => VNone) (snd (adapt d x o))
    | OpRun d x => rmap (fun '(y, e, w) => VRun y e w) (snd (run d x o))
    | OpPretrained d x nt ep => rmap (fun '(y, e, w) => VRun y e w) (snd (pretrained_run d x nt ep o))
    end.

  (** a script of calls (the caller catches exceptions and goes on) *)
  Definition exec_all (ps : list op) (o : obj) : obj := fold_left (fun s p => exec p s) ps o.
  Fixpoint outcomes (ps : list op) (o : obj) : list (result outv) :=
    match ps with
    | [] => []
    | p :: ps' => outcome p o :: outcomes ps' (exec p o)
    end.
  Definition is_predict (p : op) : bool := match p with OpPredict _ => true | _ => false end.

  (** inputs of the right width (nothing is said about the number of targets) *)
  Definition op_shape (n : nat) (p : op) : Prop :=
    match p with
    | OpPredict x => length x = n
    | OpAdapt _ x => length x = n
    | OpRun _ x => rows_of n x
    | OpPretrained _ x _ _ => rows_of n x
    end.

  (** the random generator returns as many numbers as asked for *)
  Definition rng_ok (rng : nat -> vec) : Prop := forall k, length (rng k) = k.

  (** mem and order, when given, are at least 1 *)
  Definition sane_kw (kw : kwargs T) : Prop :=
    (forall m, kw_mem kw = Some m -> 1 <= m) /\ (forall o, kw_order kw = Some o -> 1 <= o).

  (** assignment to a numeric parameter of a class, f.eps = v, ...; on a class that has no such attribute, or (RLS) reads it
      only in its constructor, the assignment changes nothing a later call can see.  The attributes: nlms.py:158, nlmf.py:93, nsslms.py:94, gmcc.py:75-76,
      llncosh.py:88, gngd.py:80-81, rls.py:176, ocnlms.py:93, vslms_ang.py:89-90, vslms_benveniste.py:86, vslms_mathews.py:86 *)
  Inductive attr : Type := AttrEps | AttrRo | AttrA | AttrLambd | AttrAlpha.
  Definition assign_param (p : attr) (v : T) (x : ext T) : ext T :=
    match p, x with
    | AttrEps, XNLMS _ => XNLMS v
    | AttrEps, XNLMF _ => XNLMF v
    | AttrEps, XNSSLMS _ => XNSSLMS v
    | AttrEps, XGNGD _ ro le lx => XGNGD v ro le lx
    | AttrEps, XRLS _ R => XRLS v R
    | AttrEps, XOCNLMS _ mem em mx md idx => XOCNLMS v mem em mx md idx
    | AttrRo, XGNGD eps _ le lx => XGNGD eps v le lx
    | AttrRo, XAng _ a le lx lf lm => XAng v a le lx lf lm
    | AttrRo, XBenveniste _ le lx lf lm => XBenveniste v le lx lf lm
    | AttrRo, XMathews _ le lx lm => XMathews v le lx lm
    | AttrA, XAng ro _ le lx lf lm => XAng ro v le lx lf lm
    | AttrLambd, XGMCC _ al => XGMCC v al
    | AttrLambd, XLlncosh _ => XLlncosh v
    | AttrAlpha, XGMCC la _ => XGMCC la v
    | _, _ => x
    end.

  (** the remaining public methods, called directly, and assignments to the attributes mu, w and the parameters:
      base_filter.py:131-141 learning_rule (every class overrides it), ocnlms.py:124-164, base_filter.py:38-39 *)
  Inductive call : Type :=
  | CallLearningRule (e : T) (x : vec)
  | CallClearMemory
  | CallUpdateMemoryX (x : vec)
  | CallUpdateMemoryD (d : T)
  | CallReadMemory
  | AssignMu (mu : T)
  | AssignW (w : vec)
  | AssignParam (p : attr) (v : T).
  (* the state after the call of base_filter.py:131, ocnlms.py:124,133,139,145, or after f.mu = mu, f.w = w; the returned value is in C95 *)
  Definition exec_call (c : call) (o : obj) : obj :=
    match c with
    | CallLearningRule e x => fst (learning_rule e x o)
    | CallClearMemory => fst (clear_memory o)
    | CallUpdateMemoryX x => fst (update_memory_x x o)
    | CallUpdateMemoryD d => fst (update_memory_d d o)
    | CallReadMemory => fst (read_memory o)
    | AssignMu mu => mkObj (o_w o) (o_n o) mu (o_hist o) (o_ext o)
    | AssignW w => set_w w o
    | AssignParam p v => set_ext (assign_param p v (o_ext o)) o
    end.
  Definition call_shape (n : nat) (c : call) : Prop :=
    match c with
    | CallLearningRule _ x | CallUpdateMemoryX x | AssignW x => length x = n
    | _ => True
    end.

  (** a filter of size n obtained by a constructor call and any history of well-shaped calls of any of its public methods *)
  Inductive reachable (n : nat) : obj -> Prop :=
  | reach_new (rng : nat -> vec) (k : kind) (kw : kwargs T) (o : obj) :
      rng_ok rng -> sane_kw kw -> kw_n kw = Some (Z.of_nat n) ->
      new_filter rng k kw = Ok o -> reachable n o
  | reach_base (rng : nat -> vec) (mu : T) (w : wspec T) (o : obj) :
      rng_ok rng -> init_base rng (Z.of_nat n) mu w XBase = Ok o -> reachable n o
  | reach_op (o : obj) (p : op) :
      reachable n o -> op_shape n p -> reachable n (exec p o)
  | reach_call (o : obj) (c : call) :
      reachable n o -> call_shape n c -> reachable n (exec_call c o).
End Spec.
