(** Model of padasip/misc/error_evaluation.py: get_valid_error, logSE, MAE, MSE, RMSE, get_mean_error. *)
From Coq Require Import QArith.
From Verif Require Import Py Num Numpy.
Open Scope nat_scope.

Section Misc.
  Context {T : Type} {NT : Num T}.
  Notation vec := (list T).

  (** The second argument: a Python int, another scalar (float, numpy scalar) or a 1-d series.
      Series are 1-d; x1 is always a series (conversion to an array succeeds). *)
  (* error_evaluation.py:99,110 *)
  Inductive arg2 : Type := AInt (z : Z) | AScalar (a : T) | ASeries (v : vec).

  (** error_evaluation.py:99-125 get_valid_error; the default of x2 is the int -1.
      len() of a 0-d array raises TypeError (line 122). *)
  Definition get_valid_error (x1 : vec) (x2 : arg2) : result vec :=
    match x2 with
    | AInt z => if (z =? -1)%Z then Ok x1 else Err TypeError
    | AScalar _ => Err TypeError
    | ASeries x2 =>
        if length x1 =? length x2 then Ok (map2 nsub x1 x2) else Err ValueError
    end.

  (** error_evaluation.py:127-149 logSE: 10*np.log10(e**2) *)
  Definition logSE (x1 : vec) (x2 : arg2) : result vec :=
    rmap (map (fun e => nmul (nofZ 10) (nlog10 (npown e 2)))) (get_valid_error x1 x2).

  (** error_evaluation.py:152-173 MAE: np.sum(np.abs(e)) / float(len(e)) *)
  Definition MAE (x1 : vec) (x2 : arg2) : result T :=
    rmap (fun e => ndiv (nsum (map nabs e)) (nofnat (length e))) (get_valid_error x1 x2).

  (** error_evaluation.py:175-196 MSE: np.dot(e, e) / float(len(e)) *)
  Definition MSE (x1 : vec) (x2 : arg2) : result T :=
    rmap (fun e => ndiv (ndot e e) (nofnat (length e))) (get_valid_error x1 x2).

  (** error_evaluation.py:198-219 RMSE: np.sqrt(np.dot(e, e) / float(len(e))) *)
  Definition RMSE (x1 : vec) (x2 : arg2) : result T :=
    rmap (fun e => nsqrt (ndiv (ndot e e) (nofnat (length e)))) (get_valid_error x1 x2).

  (** error_evaluation.py:221-245 get_mean_error *)
  Definition get_mean_error (x1 : vec) (x2 : arg2) (function : string) : result T :=
    if String.eqb function "MSE" then MSE x1 x2
    else if String.eqb function "MAE" then MAE x1 x2
    else if String.eqb function "RMSE" then RMSE x1 x2
    else Err ValueError.
End Misc.
Arguments arg2 T : clear implicits.
