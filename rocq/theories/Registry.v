(** Model of the class constructors with their keyword arguments and of padasip/filters/__init__.py
    (FILTER_CLASSES, FILTERS, filter_data, AdaptiveFilter, get_filter). *)
From Coq Require Import QArith Ascii.
From Verif Require Import Py Num Numpy Filters.
Open Scope nat_scope.

(** The filter classes, filters/__init__.py:267-283 *)
Inductive kind : Type :=
| KAP | KGMCC | KGNGD | KLlncosh | KLMF | KLMS | KNLMF | KNLMS | KNSSLMS | KOCNLMS | KRLS | KSSLMS
| KAng | KBenveniste | KMathews.

(** class attribute [kind]: ap.py:155, gmcc.py:64, gngd.py:66, llncosh.py:78, lmf.py:93, lms.py:158,
    nlmf.py:82, nlms.py:148, nsslms.py:84, ocnlms.py:79, rls.py:166, sslms.py:97, vslms_ang.py:75,
    vslms_benveniste.py:75, vslms_mathews.py:75 *)
Definition kind_name (k : kind) : string :=
  match k with
  | KAP => "AP" | KGMCC => "GMCC" | KGNGD => "GNGD" | KLlncosh => "Llncosh" | KLMF => "LMF"
  | KLMS => "LMS" | KNLMF => "NLMF" | KNLMS => "NLMS" | KNSSLMS => "NSSLMS"
  | KOCNLMS => "OCNLMS" | KRLS => "RLS" | KSSLMS => "SSLMS" | KAng => "VSLMS_Ang"
  | KBenveniste => "VSLMS_Benveniste" | KMathews => "VSLMS_Mathews"
  end%string.

(** filters/__init__.py:267-283 FILTER_CLASSES *)
Definition FILTER_CLASSES : list kind :=
  [KAP; KGMCC; KGNGD; KLlncosh; KLMF; KLMS; KNLMF; KNLMS; KNSSLMS; KOCNLMS; KRLS; KSSLMS;
   KAng; KBenveniste; KMathews].

(** str.upper on ASCII characters (non-ASCII strings are outside the model) *)
(* used at filters/__init__.py:215,217,253,255,262,285 *)
Definition upper_ascii (c : ascii) : ascii :=
  let n := nat_of_ascii c in
  if (97 <=? n) && (n <=? 122) then ascii_of_nat (n - 32) else c.
(* used at filters/__init__.py:215,217,253,255,262,285 *)
Fixpoint upper (s : string) : string :=
  match s with
  | EmptyString => EmptyString
  | String c s' => String (upper_ascii c) (upper s')
  end.

(** filters/__init__.py:285 FILTERS (a dict comprehension: a later equal key would win) *)
Definition FILTERS : list (string * kind) := map (fun k => (upper (kind_name k), k)) FILTER_CLASSES.

(* used at filters/__init__.py:215,217,253,255,262; the last of equal keys wins (line 285) *)
Fixpoint dict_get (l : list (string * kind)) (key : string) : option kind :=
  match l with
  | [] => None
  | (k, v) :: l' =>
      match dict_get l' key with
      | Some v' => Some v'
      | None => if String.eqb k key then Some v else None
      end
  end.

(** filters/__init__.py:257-265 get_filter (name a string) *)
Definition get_filter (name : string) : result kind :=
  match dict_get FILTERS (upper name) with
  | Some k => Ok k
  | None => Err ValueError
  end.

(** Optional keywords that only some classes accept *)
(* filters/__init__.py:184,219 (keyword arguments) and the signatures listed at [accepts], e.g. nlms.py:150 *)
Inductive param : Type := Peps | Pro | Pa | Plambd | Palpha | Porder | Pifc | Pmem.

Section Registry.
  Context {T : Type} {NT : Num T}.
  Notation vec := (list T).
  Notation mat := (list (list T)).

  (** Keyword arguments of a call; [kw_other]: some keyword that no class knows is present.
      mem and order are non-negative ints here (a negative one makes np.zeros raise ValueError). *)
  (* filters/__init__.py:184,219 (keyword arguments) and the signatures listed at [accepts], e.g. nlms.py:150 *)
  Record kwargs : Type := mkKw {
    kw_n : option Z;
    kw_mu : option T;
    kw_w : option (wspec T);
    kw_eps : option T;
    kw_ro : option T;
    kw_a : option T;
    kw_lambd : option T;
    kw_alpha : option T;
    kw_order : option nat;
    kw_ifc : option T;
    kw_mem : option nat;
    kw_other : bool
  }.

  (** [kwargs["n"] = ...] *)
  (* filters/__init__.py:213 *)
  Definition kw_set_n (n : Z) (kw : kwargs) : kwargs :=
    mkKw (Some n) (kw_mu kw) (kw_w kw) (kw_eps kw) (kw_ro kw) (kw_a kw) (kw_lambd kw) (kw_alpha kw)
         (kw_order kw) (kw_ifc kw) (kw_mem kw) (kw_other kw).

  (* filters/__init__.py:184,219 (keyword arguments) and the signatures listed at [accepts], e.g. nlms.py:150 *)
  Definition given {A} (o : option A) : bool := match o with Some _ => true | None => false end.
  (* filters/__init__.py:184,219 (keyword arguments) and the signatures listed at [accepts], e.g. nlms.py:150 *)
  Definition kw_given (kw : kwargs) (p : param) : bool :=
    match p with
    | Peps => given (kw_eps kw) | Pro => given (kw_ro kw) | Pa => given (kw_a kw)
    | Plambd => given (kw_lambd kw) | Palpha => given (kw_alpha kw)
    | Porder => given (kw_order kw) | Pifc => given (kw_ifc kw) | Pmem => given (kw_mem kw)
    end.

  (** signatures of the constructors: base_filter.py:14,219; gmcc.py:66; gngd.py:68; llncosh.py:80;
      nlmf.py:84; nlms.py:150; nsslms.py:86; ocnlms.py:81; rls.py:168; vslms_ang.py:77;
      vslms_benveniste.py:77; vslms_mathews.py:77.  lms, lmf and sslms have no __init__. *)
  Definition accepts (k : kind) (p : param) : bool :=
    match k, p with
    | KAP, Porder | KAP, Pifc => true
    | KGMCC, Plambd | KGMCC, Palpha => true
    | KGNGD, Peps | KGNGD, Pro => true
    | KLlncosh, Plambd => true
    | KNLMF, Peps | KNLMS, Peps | KNSSLMS, Peps | KRLS, Peps => true
    | KOCNLMS, Peps | KOCNLMS, Pmem => true
    | KAng, Pro | KAng, Pa => true
    | KBenveniste, Pro | KMathews, Pro => true
    | _, _ => false
    end.

  (** default of mu; None: mu is a required argument *)
  (* base_filter.py:14,219; gmcc.py:66; gngd.py:68; llncosh.py:80; nlmf.py:84; nlms.py:150; nsslms.py:86; ocnlms.py:81; rls.py:168; vslms_ang.py:77; vslms_benveniste.py:77; vslms_mathews.py:77 *)
  Definition default_mu (k : kind) : option Q :=
    match k with
    | KAP | KLMF | KLMS | KSSLMS => None
    | KNLMF | KNLMS | KNSSLMS | KRLS | KOCNLMS => Some (1 # 10)
    | KGMCC | KLlncosh => Some (1 # 100)
    | KGNGD | KAng | KBenveniste | KMathews => Some (1 # 1)
    end.

  (* filters/__init__.py:184,219 (keyword arguments) and the signatures listed at [accepts], e.g. nlms.py:150 *)
  Definition all_params : list param := [Peps; Pro; Pa; Plambd; Palpha; Porder; Pifc; Pmem].

  (* default values in the signatures, e.g. nlms.py:150 *)
  Definition opt {A} (o : option A) (dflt : A) : A := match o with Some a => a | None => dflt end.

  (** class-specific part of __init__, given n >= 0 (super().__init__ has succeeded) and mu:
      gmcc.py:75-76, gngd.py:80-83, llncosh.py:88, nlmf.py:93, nlms.py:158, nsslms.py:94,
      ocnlms.py:93-95, rls.py:176-177 (1 / self.eps is Python division), vslms_ang.py:89-94,
      vslms_benveniste.py:86-90, vslms_mathews.py:86-89, base_filter.py:231-237 *)
  Definition init_ext (k : kind) (kw : kwargs) (n : nat) (mu : T) : result (ext T) :=
    match k with
    | KLMS => Ok XLMS
    | KLMF => Ok XLMF
    | KSSLMS => Ok XSSLMS
    | KNLMS => Ok (XNLMS (opt (kw_eps kw) (nofQ (1 # 1000))))
    | KNLMF => Ok (XNLMF (opt (kw_eps kw) (nofQ (1 # 1000))))
    | KNSSLMS => Ok (XNSSLMS (opt (kw_eps kw) (nofQ (1 # 1000))))
    | KGMCC => Ok (XGMCC (opt (kw_lambd kw) (nofQ (3 # 100))) (opt (kw_alpha kw) (nofZ 2)))
    | KLlncosh => Ok (XLlncosh (opt (kw_lambd kw) (nofZ 3)))
    | KGNGD => Ok (XGNGD (opt (kw_eps kw) (nofQ (1 # 1))) (opt (kw_ro kw) (nofQ (1 # 10))) n0 (zeros n))
    | KRLS =>
        let eps := opt (kw_eps kw) (nofQ (1 # 1000)) in
        if neqb eps n0 then Err ZeroDivisionError
        else Ok (XRLS eps (mscale (ndiv n1 eps) (identity n)))
    | KOCNLMS =>
        let mem := opt (kw_mem kw) 100 in
        Ok (XOCNLMS (opt (kw_eps kw) (nofQ (1 # 1))) mem true (zeros2 mem n) (zeros mem) 0)
    | KAng => Ok (XAng (opt (kw_ro kw) (nofQ (2 # 10000))) (opt (kw_a kw) (nofQ (95 # 100)))
                       n0 (zeros n) (zeros n) mu)
    | KBenveniste => Ok (XBenveniste (opt (kw_ro kw) (nofQ (1 # 10))) n0 (zeros n) (zeros n) mu)
    | KMathews => Ok (XMathews (opt (kw_ro kw) (nofQ (1 # 10))) n0 (zeros n) mu)
    | KAP =>
        let order := opt (kw_order kw) 5 in
        let ifc := opt (kw_ifc kw) (nofQ (1 # 1000)) in
        Ok (XAP order (zeros2 n order) (zeros order) (mscale ifc (identity order)) (identity order) [] [])
    end.

  (** Calling the class: argument binding (TypeError), then AdaptiveFilter.__init__, then the rest. *)
  (* filters/__init__.py:217,255 (the call of the class); base_filter.py:14-41,219-237 and the __init__ of each class, see [init_ext] *)
  Definition new_filter (rng : nat -> vec) (k : kind) (kw : kwargs) : result (obj T) :=
    if kw_other kw then Err TypeError
    else if existsb (fun p => kw_given kw p && negb (accepts k p)) all_params then Err TypeError
    else
      match kw_n kw with
      | None => Err TypeError
      | Some n =>
          match (match kw_mu kw with
                 | Some mu => Some mu
                 | None => match default_mu k with Some q => Some (nofQ q) | None => None end
                 end) with
          | None => Err TypeError
          | Some mu =>
              rbind (init_base rng n mu (opt (kw_w kw) (WStr "random")) XBase) (fun o =>
              rmap (fun x => set_ext x o) (init_ext k kw (Z.to_nat n) mu))
          end
      end.

  (** filters/__init__.py:219-255 AdaptiveFilter(model, kwargs) *)
  Definition AdaptiveFilter_factory (rng : nat -> vec) (model : string) (kw : kwargs) : result (obj T) :=
    if negb (given (kw_n kw)) then Err ValueError
    else match dict_get FILTERS (upper model) with
         | None => Err ValueError
         | Some k => new_filter rng k kw
         end.

  (** filters/__init__.py:184-217 filter_data(d, x, model, kwargs): x is a 2-d array with [cols]
      columns; the filter object itself is discarded *)
  Definition filter_data (rng : nat -> vec) (d : vec) (x : mat) (cols : nat) (model : string)
             (kw : kwargs) : result (vec * vec * mat) :=
    let kw' := kw_set_n (Z.of_nat cols) kw in
    match dict_get FILTERS (upper model) with
    | None => Err ValueError
    | Some k => rbind (new_filter rng k kw') (fun o => snd (run d x o))
    end.
End Registry.

Arguments kwargs T : clear implicits.
