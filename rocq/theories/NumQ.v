From Coq Require Import QArith Qabs.
From Verif Require Import Py Num.

(** ** Exact rationals (always in lowest terms), for computed witnesses.
    exp, tanh, sqrt, log10 and real powers do not exist there: they are 0 and no witness uses them. *)
Section QInst.
  Local Open Scope Q_scope.

  (* exact rational counterpart of the numpy operation, no lines of /repo *)
  Definition qsgn (x : Q) : Q := if Qlt_le_dec x 0 then - (1) else if Qlt_le_dec 0 x then 1 else 0.
  (* exact rational counterpart of the numpy operation, no lines of /repo *)
  Fixpoint qpown (x : Q) (k : nat) : Q :=
    match k with O => 1 | S k' => Qred (x * qpown x k') end.
  (* exact rational counterpart of the numpy operation, no lines of /repo *)
  Definition qltb (a b : Q) : bool := negb (Qle_bool b a).
  (* exact rational counterpart of the numpy operation, no lines of /repo *)
  Definition qsum (l : list Q) : Q := fold_right (fun a s => Qred (a + s)) 0 l.
  (* exact rational counterpart of the numpy operation, no lines of /repo *)
  Fixpoint qdot (u v : list Q) : Q :=
    match u, v with
    | a :: u', b :: v' => Qred (a * b + qdot u' v')
    | _, _ => 0
    end.

  (* exact rational counterpart of the numpy operation, no lines of /repo *)
  Definition QNum (solve : list (list Q) -> list (list Q) -> option (list (list Q))) : Num Q := {|
    nadd := fun a b => Qred (a + b); nsub := fun a b => Qred (a - b);
    nmul := fun a b => Qred (a * b); ndiv := fun a b => Qred (a / b);
    nopp := fun a => Qred (- a);
    nabs := fun a => Qred (Qabs a); nsign := qsgn;
    npown := qpown; npow := fun _ _ => 0;
    nexp := fun _ => 0; ntanh := fun _ => 0; nsqrt := fun _ => 0; nlog10 := fun _ => 0;
    nltb := qltb; nleb := Qle_bool; neqb := Qeq_bool;
    nofZ := inject_Z; nofQ := Qred; ntrunc := fun q => Z.quot (Qnum q) (Zpos (Qden q));
    nsum := qsum; ndot := qdot; nsolve := solve |}.
End QInst.

