(** Python-level notions shared by the whole model: exceptions as values, methods on mutable
    objects as state transformers that keep the mutated state when an exception is raised,
    and Python slices.  Everything here is generic and models the Python language, not a
    particular file of /repo. *)
From Coq Require Export String List Arith ZArith Bool Lia.
Export ListNotations.
Open Scope nat_scope.

(** The exception classes that the modelled code can raise (directly or through numpy). *)
(* raised e.g. in base_filter.py:91,193,200, filters/__init__.py:216,251, pca.py:119, mlp.py:296 *)
Inductive exn : Type :=
| ValueError | IndexError | TypeError | AttributeError | AssertionError
| ZeroDivisionError | LinAlgError | OverflowError | UnboundLocalError.

(** Outcome of a call: a value or an exception. *)
(* Python language, no lines of /repo: every call in padasip/*.py either returns or raises *)
Inductive result (A : Type) : Type :=
| Ok (a : A)
| Err (x : exn).
Arguments Ok {A} a.
Arguments Err {A} x.

(* Python language, no lines of /repo: sequencing of expressions; the first exception propagates *)
Definition rbind {A B} (r : result A) (f : A -> result B) : result B :=
  match r with Ok a => f a | Err x => Err x end.

(* Python language, no lines of /repo: sequencing of expressions; the first exception propagates *)
Definition rmap {A B} (f : A -> B) (r : result A) : result B :=
  match r with Ok a => Ok (f a) | Err x => Err x end.

(** A method call on an object of state [S]: new state of the object and outcome.
    When the outcome is an exception the state is the one reached at the raise. *)
(* methods of the classes in filters/*.py and ann/mlp.py, which mutate self *)
Definition M (S A : Type) : Type := S -> S * result A.

(* Python language, no lines of /repo: return, raise, statement sequence, reading and assigning attributes of self *)
Definition ret {S A} (a : A) : M S A := fun s => (s, Ok a).
(* Python language, no lines of /repo: return, raise, statement sequence, reading and assigning attributes of self *)
Definition raise {S A} (x : exn) : M S A := fun s => (s, Err x).
(* Python language, no lines of /repo: return, raise, statement sequence, reading and assigning attributes of self *)
Definition bind {S A B} (m : M S A) (f : A -> M S B) : M S B :=
  fun s => match m s with
           | (s', Ok a) => f a s'
           | (s', Err x) => (s', Err x)
           end.
(* Python language, no lines of /repo: return, raise, statement sequence, reading and assigning attributes of self *)
Definition get {S} : M S S := fun s => (s, Ok s).
(* Python language, no lines of /repo: return, raise, statement sequence, reading and assigning attributes of self *)
Definition modify {S} (f : S -> S) : M S unit := fun s => (f s, Ok tt).
(** An expression that reads nothing of the object but may raise. *)
(* Python language, no lines of /repo: an expression inside a method *)
Definition lift {S A} (r : result A) : M S A := fun s => (s, r).

Declare Scope py_scope.
Delimit Scope py_scope with py.
Notation "x <- m ;; k" := (bind m (fun x => k))
  (at level 61, m at next level, right associativity) : py_scope.
Notation "' p <- m ;; k" := (bind m (fun x => match x with p => k end))
  (at level 61, p pattern, m at next level, right associativity) : py_scope.
Notation "m ;;; k" := (bind m (fun _ => k)) (at level 61, right associativity) : py_scope.
Notation "'let?' x := r 'in' k" := (rbind r (fun x => k))
  (at level 200, x pattern, r at level 100, k at level 200) : py_scope.

(** [for _ in range(k): m] *)
(* base_filter.py:148 *)
Fixpoint repeat_m {S} (k : nat) (m : M S unit) : M S unit :=
  match k with
  | O => ret tt
  | Datatypes.S k' => bind m (fun _ => repeat_m k' m)
  end.

(** Python index bound of a slice: negative values count from the end, then clamp to [0, len]. *)
(* base_filter.py:149,151; pca.py:126; lda.py:168; ese.py:101 *)
Definition slice_idx (len : nat) (z : Z) : nat :=
  if (z <? 0)%Z then Z.to_nat (Z.of_nat len + z) else Nat.min len (Z.to_nat z).

(** [l[:z]] and [l[z:]] *)
(* base_filter.py:149,151; pca.py:126; lda.py:168; ese.py:101 *)
Definition slice_to {A} (l : list A) (z : Z) : list A := firstn (slice_idx (List.length l) z) l.
(* base_filter.py:149,151; pca.py:126; lda.py:168; ese.py:101 *)
Definition slice_from {A} (l : list A) (z : Z) : list A := skipn (slice_idx (List.length l) z) l.

(** [l[i:j]] for natural i <= j *)
(* input_from_history.py:70; le.py:174; ese.py:134; mlp.py:327 *)
Definition slice {A} (l : list A) (i j : nat) : list A := firstn (j - i) (skipn i l).

(** [l[k] = v] on a mutable list; only used at indices that the caller has checked. *)
(* base_filter.py:207,319; ocnlms.py:137,143 *)
Fixpoint set_nth {A} (k : nat) (v : A) (l : list A) : list A :=
  match l, k with
  | [], _ => []
  | _ :: l', O => v :: l'
  | a :: l', Datatypes.S k' => a :: set_nth k' v l'
  end.

(** elementwise combination of two lists of equal length *)
(* numpy elementwise operators, e.g. base_filter.py:210,272; standardize.py:99 *)
Fixpoint map2 {A B C} (f : A -> B -> C) (u : list A) (v : list B) : list C :=
  match u, v with
  | a :: u', b :: v' => f a b :: map2 f u' v'
  | _, _ => []
  end.

(** collect results left to right, first exception wins *)
(* Python language, no lines of /repo: loops whose body may raise, e.g. elbnd.py:123, ese.py:130-138 *)
Fixpoint sequence {A} (l : list (result A)) : result (list A) :=
  match l with
  | [] => Ok []
  | r :: l' => rbind r (fun a => rmap (cons a) (sequence l'))
  end.
