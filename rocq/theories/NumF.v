From Coq Require Import QArith Uint63 PrimFloat FloatOps.
From Verif Require Import Py Num.

(** ** IEEE binary64, kernel floats.  Only + - * / sqrt and comparisons exist in the kernel; the
    transcendental functions are nan here and no witness uses them.  Sums are left to right, which
    is what numpy does for fewer than 8 summands. *)
Section FInst.
  Local Open Scope float_scope.

  (* binary64 counterpart of the numpy operation, no lines of /repo *)
  Definition f_of_Z (z : Z) : float :=
    match z with
    | Z0 => 0
    | Zpos _ => of_uint63 (Uint63.of_Z z)
    | Zneg p => - of_uint63 (Uint63.of_Z (Zpos p))
    end.
  (* binary64 counterpart of the numpy operation, no lines of /repo *)
  Fixpoint fpown (x : float) (k : nat) : float :=
    match k with O => 1 | S O => x | S k' => fpown x k' * x end.
  (* binary64 counterpart of the numpy operation, no lines of /repo *)
  Definition fsgn (x : float) : float := if x <? 0 then -1 else if 0 <? x then 1 else x.

  (** int(x) for 0 <= x < 2^62: fuel-free, by exponent/mantissa decomposition *)
  (* binary64 counterpart of the numpy operation, no lines of /repo *)
  Definition f_trunc (x : float) : Z :=
    let '(m, e) := FloatOps.Z.frexp (PrimFloat.abs x) in          (* |x| = m * 2^e with m in [1/2, 1) *)
    let i := Uint63.to_Z (normfr_mantissa m) in (* m * 2^53 *)
    let t := Z.shiftl i (e - 53) in
    if x <? 0 then Z.opp t else t.

  (* binary64 counterpart of the numpy operation, no lines of /repo *)
  Definition FNum (solve : list (list float) -> list (list float) -> option (list (list float))) : Num float := {|
    nadd := PrimFloat.add; nsub := PrimFloat.sub; nmul := PrimFloat.mul; ndiv := PrimFloat.div;
    nopp := PrimFloat.opp; nabs := PrimFloat.abs; nsign := fsgn; npown := fpown; npow := fun _ _ => nan;
    nexp := fun _ => nan; ntanh := fun _ => nan; nsqrt := PrimFloat.sqrt; nlog10 := fun _ => nan;
    nltb := PrimFloat.ltb; nleb := PrimFloat.leb; neqb := PrimFloat.eqb;
    nofZ := f_of_Z;
    (* a literal p/q with p, q exactly representable: division is correctly rounded, as is the
       conversion of a decimal literal by Python *)
    nofQ := fun q => PrimFloat.div (f_of_Z (Qnum q)) (f_of_Z (Zpos (Qden q)));
    ntrunc := f_trunc;
    nsum := fun l => fold_left PrimFloat.add l 0; ndot := fun u v => fold_left PrimFloat.add (map2 PrimFloat.mul u v) 0;
    nsolve := solve |}.
End FInst.
