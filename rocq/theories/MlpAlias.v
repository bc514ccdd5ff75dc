(** Array identity in padasip/ann/mlp.py.  In Mlp.v a network holds values; in Python it holds references to numpy
    arrays.  What can be seen from outside:
    - the input vector x of predict is copied into self.x[1:] of the first layer (mlp.py:160; with no layer into that of
      the network, mlp.py:424); no reference to it is kept.  The target d of update is only read (mlp.py:449);
    - predict of a network with several outputs returns the array self.y itself (mlp.py:429-430), a new array in every
      call; update reads it again (mlp.py:449).  With one output self.y is a number;
    - update returns a copy of the error (mlp.py:450,461);
    - train, run and test work on private copies of x and d (mlp.py:306-307,347,393-394) and return new arrays (mlp.py:311-315,
      352-355,398-401,405), into which y[k] = self.predict(x[k]) copies; the array self.y that the last predict inside
      them leaves behind is private.
    All other attributes never leave the object (attribute access from outside, such as net.w or net.layers[0].y, is not
    modelled).  The model below makes these references explicit and reuses the computations of Mlp.v on the dereferenced
    values.  Arrays of the program are 1-d float arrays. *)
From Coq Require Import QArith.
From Verif Require Import Py Num Numpy Mlp.
Open Scope nat_scope.

Section MlpAlias.
  Context {T : Type} {NT : Num T}.
  Notation vec := (list T).
  Notation mat := (list (list T)).

  (** the arrays the program holds, addressed by position, and the network; [hlive]: the address of self.y if the program
      also holds that array *)
  (* mlp.py:427-430 *)
  Record mstate : Type := mkMstate { harr : list vec; hnet : net T; hlive : option nat }.

  (* mlp.py:249,427,429 *)
  Definition with_y (y : val T) (n : net T) : net T :=
    mkNet (m_mu n) (m_n n) (m_outputs n) (m_w n) (m_x n) y (m_layers n).

  (** the network as its methods see it: self.y dereferenced *)
  (* mlp.py:449 *)
  Definition mload (s : mstate) : net T :=
    match hlive s with Some a => with_y (VArr (nth a (harr s) [])) (hnet s) | None => hnet s end.

  (** net.predict(x), x the array at address a: an array result is a new array, kept as self.y and returned *)
  (* mlp.py:407-430 *)
  Definition predict_m (a : nat) (s : mstate) : mstate * result (val T) :=
    match net_predict (nth a (harr s) []) (mload s) with
    | (n', Ok (VArr y)) => (mkMstate (harr s ++ [y]) n' (Some (length (harr s))), Ok (VArr y))
    | (n', Ok (VNum y)) => (mkMstate (harr s) n' None, Ok (VNum y))
    | (n', Err e) => (mkMstate (harr s) n' (hlive s), Err e)
    end.

  (** the target of update: a number or the array at address a *)
  (* mlp.py:432-449 *)
  Inductive target : Type := TNum (t : T) | TArr (a : nat).
  (* mlp.py:449 *)
  Definition deref (t : target) (arrs : list vec) : val T := match t with TNum t => VNum t | TArr a => VArr (nth a arrs []) end.

  (** the arrays of the program after a call that returned this value: an array result is a new array *)
  (* mlp.py:429-430,450,461 *)
  Definition keep_result (r : result (val T)) (arrs : list vec) : list vec :=
    match r with Ok (VArr v) => arrs ++ [v] | _ => arrs end.

  (** net.update(d): the copy of the error is a new array of the program; self.y stays the same object *)
  (* mlp.py:432-461 *)
  Definition update_m (t : target) (s : mstate) : mstate * result (val T) :=
    let '(n', r) := net_update (deref t (harr s)) (mload s) in (mkMstate (keep_result r (harr s)) n' (hlive s), r).

  (** the first predict of a loop over the rows x assigns self.y *)
  (* mlp.py:325,358,404 *)
  Definition assigns (x : mat) (n : net T) : bool :=
    match x with
    | [] => false
    | r :: _ => match snd (net_predict r n) with Ok _ => true | Err _ => false end
    end.
  (** after such a loop self.y is a private array, otherwise it is what it was *)
  (* mlp.py:323-326,357-358,403-404 *)
  Definition after_loop (changed : bool) (n' : net T) (s : mstate) : mstate :=
    mkMstate (harr s) n' (if changed then None else hlive s).

  (* mlp.py:330-359 *)
  Definition run_m (x : mat) (s : mstate) : mstate * result (list (val T)) :=
    let '(n', r) := net_run x (mload s) in (after_loop (assigns x (mload s)) n' s, r).
  (* mlp.py:361-405 *)
  Definition test_m (x : mat) (d : darg T) (s : mstate) : mstate * result (list (val T)) :=
    let '(n', r) := net_test x d (mload s) in
    (after_loop (match check_data x d (mload s) with Ok _ => assigns x (mload s) | Err _ => false end) n' s, r).
  (* mlp.py:261-328 *)
  Definition train_m (x : mat) (d : darg T) (epochs : nat) (shuffle : option (list nat)) (s : mstate)
    : mstate * result (list (val T) * vec) :=
    let '(n', r) := net_train x d epochs shuffle (mload s) in
    (after_loop (match check_data x d (mload s) with
                 | Ok _ => negb (epochs =? 0) && assigns (match shuffle with None => x | Some idx => take idx x [] end) (mload s)
                 | Err _ => false
                 end) n' s, r).
End MlpAlias.
Arguments mstate T : clear implicits.
Arguments target T : clear implicits.
