(** The encoding of None and integers in checkpoint files, my_pyscf/lassi/op_o1/chkfile.py:18-48,
    and the reloading of fragment intermediates, op_o1/frag.py:589-621.
    Below the encoding stands pyscf.lib.chkfile, a library assumption modelled by [h5_value]: lists,
    tuples and other iterables come back as lists, text as bytes, arrays unchanged, dictionaries need
    text keys and keep them as text; None is a TypeError.  The order of dictionary items is not
    represented. *)
From Coq Require Import List Arith Bool ZArith String Ascii DecimalString.
From Verif Require Import Base ChkModel.
Import ListNotations.
Local Open Scope string_scope.
Local Open Scope list_scope.

Section V.
Variable A : Type.  (* arrays *)
Inductive key := KNone | KInt (z : Z) | KBool (b : bool) | KStr (s : string).
Inductive val :=
| VNone | VInt (z : Z) | VBool (b : bool) | VStr (s : string) | VBytes (s : string) | VArr (a : A)
| VList (l : list val) | VTuple (l : list val) | VGen (l : list val) | VDict (l : list (key * val)).

(** s in t *)
Fixpoint has_sub (s t : string) : bool :=
  prefix s t || match t with EmptyString => false | String _ t' => has_sub s t' end.
(** t.split ('.')[0] *)
Fixpoint before_dot (t : string) : string :=
  match t with
  | EmptyString => EmptyString
  | String c t' => if Ascii.eqb c "." then EmptyString else String c (before_dot t')
  end.
(** int (t): decimal digits with an optional minus sign; other spellings that Python also accepts
    (blanks, '+', '_') are treated as errors *)
Definition py_int (t : string) : res Z :=
  match NilZero.int_of_string t with Some d => Ok (Z.of_int d) | None => Raise ValueError end.
Definition bstr (b : bool) : string := if b then "True" else "False".
(** str (bytes), for bytes that need no escapes *)
Definition str_of_bytes (s : string) : string := ("b'" ++ s ++ "'")%string.

(** myfilter of dump: op_o1/chkfile.py:28-34 *)
Definition enc_leaf (v : val) : val :=
  match v with
  | VNone => VStr "__from_None__"
  | VInt z => VStr (pystr z ++ ".__from_int__")
  | VBool b => VStr (bstr b ++ ".__from_int__")
  | _ => v
  end.
Definition enc_key (k : key) : key :=
  match k with
  | KNone => KStr "__from_None__"
  | KInt z => KStr (pystr z ++ ".__from_int__")
  | KBool b => KStr (bstr b ++ ".__from_int__")
  | KStr s => KStr s
  end.
Definition key_eqb (k k' : key) : bool :=
  match k, k' with
  | KNone, KNone => true
  | KInt a, KInt b => Z.eqb a b
  | KBool a, KBool b => Bool.eqb a b
  | KInt a, KBool b | KBool b, KInt a => Z.eqb a (if b then 1 else 0)
  | KStr a, KStr b => String.eqb a b
  | _, _ => false
  end.
(** {k: v for ...}: a later item with the same key replaces the value *)
Fixpoint dict_set (k : key) (v : val) (d : list (key * val)) : list (key * val) :=
  match d with
  | [] => [(k, v)]
  | (k', v') :: d' => if key_eqb k k' then (k', v) :: d' else (k', v') :: dict_set k v d'
  end.
Definition mk_dict (l : list (key * val)) : list (key * val) := fold_left (fun d kv => dict_set (fst kv) (snd kv) d) l [].

(** iterate_down: op_o1/chkfile.py:18-25 (in dump: no exception) *)
Fixpoint enc (v : val) : val :=
  match v with
  | VList l => VList (map enc l)
  | VTuple l => VGen (map enc l)
  | VDict l => VDict (mk_dict (map (fun kv => (enc_key (fst kv), enc (snd kv))) l))
  | _ => enc_leaf v
  end.

(** pyscf.lib.chkfile.load after dump *)
Fixpoint h5_value (v : val) : res val :=
  let fix go (l : list val) : res (list val) :=
    match l with [] => Ok [] | x :: r => bind (h5_value x) (fun y => bind (go r) (fun ys => Ok (y :: ys))) end in
  match v with
  | VNone => Raise TypeError
  | VStr s | VBytes s => Ok (VBytes s)
  | VInt _ | VBool _ | VArr _ => Ok v
  | VList l | VTuple l | VGen l => bind (go l) (fun l' => Ok (VList l'))
  | VDict l =>
      let fix god (l : list (key * val)) : res (list (key * val)) :=
        match l with
        | [] => Ok []
        | (KStr s, x) :: r => bind (h5_value x) (fun y => bind (god r) (fun ys => Ok ((KStr s, y) :: ys)))
        | _ :: _ => Raise TypeError
        end in
      bind (god l) (fun l' => Ok (VDict l'))
  end.

(** myfilter of load: op_o1/chkfile.py:38-47; the text is str (item) *)
Definition dec_text (t : string) : res (option Z) :=
  let t := if prefix "b'" t then substring 2 (String.length t - 2) t else t in
  bind (py_int (before_dot t)) (fun z => Ok (Some z)).
Definition dec_leaf (v : val) : res val :=
  match v with
  | VStr s | VBytes s =>
      let t := match v with VBytes _ => str_of_bytes s | _ => s end in
      if has_sub "__from_None__" t then Ok VNone
      else if has_sub "__from_int__" t then bind (dec_text t) (fun o => match o with Some z => Ok (VInt z) | None => Ok VNone end)
      else Ok v
  | _ => Ok v
  end.
Definition dec_key (k : key) : res key :=
  match k with
  | KStr s => if has_sub "__from_None__" s then Ok KNone
              else if has_sub "__from_int__" s then bind (dec_text s) (fun o => match o with Some z => Ok (KInt z) | None => Ok KNone end)
              else Ok k
  | _ => Ok k
  end.
Fixpoint dec (v : val) : res val :=
  let fix go (l : list val) : res (list val) :=
    match l with [] => Ok [] | x :: r => bind (dec x) (fun y => bind (go r) (fun ys => Ok (y :: ys))) end in
  match v with
  | VList l => bind (go l) (fun l' => Ok (VList l'))
  | VTuple l | VGen l => bind (go l) (fun l' => Ok (VGen l'))
  | VDict l =>
      let fix god (l : list (key * val)) : res (list (key * val)) :=
        match l with
        | [] => Ok []
        | (k, x) :: r => bind (dec_key k) (fun k' => bind (dec x) (fun y => bind (god r) (fun ys => Ok ((k', y) :: ys))))
        end in
      bind (god l) (fun l' => Ok (VDict (mk_dict l')))
  | _ => dec_leaf v
  end.
(** dump followed by load: op_o1/chkfile.py:27-35, 37-48 *)
Definition round_trip (v : val) : res val := bind (h5_value (enc v)) dec.

(** *** Reloading fragment intermediates *)
(** Python == between a text and what was loaded *)
Definition text_eq (s : string) (v : val) : bool := match v with VStr s' => String.eqb s s' | _ => false end.
(** for key, val in loaded: a dictionary is iterated over its keys; unpacking a text of other than two
    characters into two names is a ValueError *)
Definition unpack2 (s : string) : res (string * string) :=
  match s with String a (String b EmptyString) => Ok (String a EmptyString, String b EmptyString) | _ => Raise ValueError end.
Definition chkconfig := ["norb"; "nroots"; "nelec_r"; "spins_r"; "smult_r"; "rootaddr"; "fragaddr"; "discriminator"; "idx_frag"].
(** load_chk_: frag.py:598-621.  [stored] is what the file holds for each field (the dtype text after
    the library), [mine] compares an attribute of self with a loaded value *)
Fixpoint check_fields (mine : string -> string -> bool) (keys : list string) : res bool :=
  match keys with
  | [] => Ok true
  | k :: r => bind (unpack2 k) (fun kv => if mine (fst kv) (snd kv) then check_fields mine r else Ok false)
  end.
Definition load_chk (dtype : string) (loaded_dtype : val) (mine : string -> string -> bool) : res bool :=
  if negb (text_eq dtype loaded_dtype) then Ok false else check_fields mine chkconfig.
End V.
