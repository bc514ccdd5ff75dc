(** The arithmetic used by the code, as a record of operations WITHOUT laws.

    The library computes with numpy float64 scalars.  Every model function is written over an
    arbitrary [Num T]; theorems that do not need algebra are proved for every such record, so they
    hold in particular for float64 with whatever summation order numpy/BLAS use in [np.sum] and
    [np.dot] (these two are primitive operations here for that reason).
    Three instances are given: [RNum] here, exact real arithmetic (for algebraic theorems),
    [QNum] in NumQ.v, exact rationals (to compute witnesses), [FNum] in NumF.v, kernel binary64
    floats (witnesses about rounding). *)
From Coq Require Import QArith Reals.
From Verif Require Import Py.

(* the scalar operations that occur in padasip/**/*.py; interface of numpy float64, no lines of /repo *)
Class Num (T : Type) : Type := {
  nadd : T -> T -> T;               (* a + b *)
  nsub : T -> T -> T;               (* a - b *)
  nmul : T -> T -> T;               (* a * b *)
  ndiv : T -> T -> T;               (* a / b, numpy division (no exception) *)
  nopp : T -> T;                    (* -a *)
  nabs : T -> T;                    (* np.abs *)
  nsign : T -> T;                   (* np.sign *)
  npown : T -> nat -> T;            (* a ** 2, a ** 3: integer literal exponent *)
  npow : T -> T -> T;               (* a ** b with a >= 0 and a float exponent *)
  nexp : T -> T;                    (* np.exp *)
  ntanh : T -> T;                   (* np.tanh *)
  nsqrt : T -> T;                   (* np.sqrt *)
  nlog10 : T -> T;                  (* np.log10 *)
  nltb : T -> T -> bool;            (* a < b *)
  nleb : T -> T -> bool;            (* a <= b *)
  neqb : T -> T -> bool;            (* a == b *)
  nofZ : Z -> T;                    (* conversion of an int *)
  nofQ : Q -> T;                    (* a decimal literal of the source text *)
  ntrunc : T -> Z;                  (* int(a) *)
  nsum : list T -> T;               (* np.sum of a 1-d array *)
  ndot : list T -> list T -> T;     (* np.dot of two 1-d arrays of equal length *)
  nsolve : list (list T) -> list (list T) -> option (list (list T))
                                    (* np.linalg.solve(A, B); None: LinAlgError *)
}.

(* the int constants and lengths in expressions, e.g. base_filter.py:202, error_evaluation.py:173, mlp.py:140,144 *)
Definition n0 {T} `{Num T} : T := nofZ 0.
(* the int constants and lengths in expressions, e.g. base_filter.py:202, error_evaluation.py:173, mlp.py:140,144 *)
Definition n1 {T} `{Num T} : T := nofZ 1.
(* the int constants and lengths in expressions, e.g. base_filter.py:202, error_evaluation.py:173, mlp.py:140,144 *)
Definition n2 {T} `{Num T} : T := nofZ 2.
(* the int constants and lengths in expressions, e.g. base_filter.py:202, error_evaluation.py:173, mlp.py:140,144 *)
Definition nofnat {T} `{Num T} (k : nat) : T := nofZ (Z.of_nat k).

(** ** Exact reals *)
Section RInst.
  Local Open Scope R_scope.

  (* exact real counterpart of the numpy operation, no lines of /repo *)
  Definition Rltb (a b : R) : bool := if Rlt_dec a b then true else false.
  (* exact real counterpart of the numpy operation, no lines of /repo *)
  Definition Rleb (a b : R) : bool := if Rle_dec a b then true else false.
  (* exact real counterpart of the numpy operation, no lines of /repo *)
  Definition Reqb (a b : R) : bool := if Req_EM_T a b then true else false.

  (* exact real counterpart of the numpy operation, no lines of /repo *)
  Definition Rsgn (x : R) : R :=
    if Rlt_dec x 0 then -1 else if Rlt_dec 0 x then 1 else 0.

  (** [a ** b] for a >= 0: the usual power, 0 ** 0 = 1 and 0 ** b = 0 for b <> 0
      (numpy gives inf for b < 0; theorems assume b >= 0 there). *)
  (* exact real counterpart of the numpy operation, no lines of /repo *)
  Definition Rpowf (a b : R) : R :=
    if Req_EM_T a 0 then (if Req_EM_T b 0 then 1 else 0) else Rpower a b.

  (** truncation towards zero *)
  (* exact real counterpart of the numpy operation, no lines of /repo *)
  Definition Rtrunc (x : R) : Z :=
    if Rle_dec 0 x then Int_part x else Z.opp (Int_part (- x)).

  (* exact real counterpart of the numpy operation, no lines of /repo *)
  Fixpoint Rsum (l : list R) : R :=
    match l with [] => 0 | a :: l' => a + Rsum l' end.

  (* exact real counterpart of the numpy operation, no lines of /repo *)
  Fixpoint Rdot (u v : list R) : R :=
    match u, v with
    | a :: u', b :: v' => a * b + Rdot u' v'
    | _, _ => 0
    end.

  (* exact real counterpart of the numpy operation, no lines of /repo *)
  Definition RNum (solve : list (list R) -> list (list R) -> option (list (list R))) : Num R := {|
    nadd := Rplus; nsub := Rminus; nmul := Rmult; ndiv := Rdiv; nopp := Ropp;
    nabs := Rabs; nsign := Rsgn; npown := pow; npow := Rpowf;
    nexp := exp; ntanh := tanh; nsqrt := sqrt; nlog10 := fun x => ln x / ln 10;
    nltb := Rltb; nleb := Rleb; neqb := Reqb;
    nofZ := IZR; nofQ := Q2R; ntrunc := Rtrunc;
    nsum := Rsum; ndot := Rdot; nsolve := solve |}.
End RInst.

