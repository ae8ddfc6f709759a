(** Checkpoint files: my_pyscf/mcscf/chkfile.py, lassi/chkfile.py, lassi/lassis/chkfile.py.
    An HDF5 file is a list of entries (path, content); groups are entries without data.  Values are
    elements of a type A that the file stores and returns unchanged (numpy arrays; the conversion of
    lists and Python scalars to numpy is not modelled); Python's None cannot be stored (TypeError). *)
From Coq Require Import List Arith Bool ZArith String DecimalString.
From Verif Require Import Base.
Import ListNotations.
Local Open Scope string_scope.
Local Open Scope list_scope.

(** str (i) *)
Definition pystr (z : Z) : string := NilZero.string_of_int (Z.to_int z).
Definition nstr (n : nat) : string := pystr (Z.of_nat n).

Section C.
Variable A : Type.
Definition path := list string.
Inductive content := Grp | Dat (a : A).
Definition file := list (path * content).

Fixpoint is_prefix (p q : path) : bool :=
  match p, q with
  | [], _ => true
  | x :: p', y :: q' => String.eqb x y && is_prefix p' q'
  | _, [] => false
  end.
(** p in fh5: an entry at or below p *)
Definition has (p : path) (f : file) : bool := existsb (fun e => is_prefix p (fst e)) f.
Fixpoint path_eqb (p q : path) : bool :=
  match p, q with
  | [], [] => true
  | x :: p', y :: q' => String.eqb x y && path_eqb p' q'
  | _, _ => false
  end.
(** the dataset at p *)
Definition get (p : path) (f : file) : option A :=
  match find (fun e => path_eqb p (fst e)) f with Some (_, Dat a) => Some a | _ => None end.

(** *** Elementary operations on the file; groups above a new object are created implicitly *)
Inductive op :=
| Del (k : string)                     (* del (fh5[k]) *)
| MkGrp (p : path)                     (* create_group *)
| Put (p : path) (v : option A).       (* fh5[p] = v *)
Definition step (f : file) (o : op) : res file :=
  match o with
  | Del k => if has [k] f then Ok (filter (fun e => negb (is_prefix [k] (fst e))) f) else Raise KeyError
  | MkGrp p => if has p f then Raise ValueError else Ok (f ++ [(p, Grp)])
  | Put p None => Raise TypeError
  | Put p (Some a) => if has p f then Raise ValueError else Ok (f ++ [(p, Dat a)])
  end.
(** the file when the sequence ends or raises *)
Fixpoint run (f : file) (l : list op) : file * option exn :=
  match l with
  | [] => (f, None)
  | o :: l' => match step f o with Ok f' => run f' l' | Raise e => (f, Some e) end
  end.

(** *** LASSCF objects *)
(** attributes; the table of get_space_info with the weights; CI vectors; fragment orbital lists; the
    orbsym tag of mo_coeff.  None stands for Python's None. *)
Record las := mkLas { attr : string -> option A; space : string -> option A;
                      ci : option (list (list (option A))); frags_orbs : option (list (option A));
                      orbsym : option A }.
(** length of ncas_sub or of weights *)
Variable len : option A -> nat.
Definition nfrags (o : las) : nat := len (attr o "ncas_sub").
Definition nroots (o : las) : nat := len (space o "weights").

Definition KEYS_CONFIG_LASSCF := ["ncas"; "nelecas"; "ncore"; "ncas_sub"; "nelecas_sub"].
Definition KEYS_SACONSTR_LASSCF := ["weights"; "charges"; "spins"; "smults"; "wfnsyms"].
Definition KEYS_RESULTS_LASSCF := ["e_states"; "states_converged"; "e_tot"; "mo_coeff"].
Definition KEYS_CONFIG_LASSI := KEYS_CONFIG_LASSCF ++ ["nfrags"; "break_symmetry"; "soc"; "opt"; "mo_coeff"].
Definition KEYS_RESULTS_LASSI := ["e_states"; "e_roots"; "si"; "s2"; "nelec"; "wfnsym"; "rootsym"].
Definition KEYS_RESULTS_LASSIS := KEYS_RESULTS_LASSI ++ ["converged"; "max_disc_sval"].

(** _dump_las_get_data: mcscf/chkfile.py:95-103 (without keyword overrides) *)
Definition get_data (keys_config keys_results : list string) (o : las) : list (string * option A) :=
  map (fun k => (k, attr o k)) (nodup string_dec (keys_config ++ keys_results))
  ++ map (fun k => (k, space o k)) KEYS_SACONSTR_LASSCF.
(** _dump_las_get_chkdata: mcscf/chkfile.py:105-114; [mol] is mc.mol.dumps () *)
Definition chkdata_ops (mol : A) (overwrite_mol : bool) (m : string) (f : file) : list op :=
  (if negb (has ["mol"] f) then [Put ["mol"] (Some mol)]
   else if overwrite_mol then [Del "mol"; Put ["mol"] (Some mol)] else [])
  ++ (if has [m] f then [Del m] else [])
  ++ [MkGrp [m]].
Definition enum {X} (l : list X) : list (nat * X) := combine (seq 0 (List.length l)) l.
(** _dump_las_1_: mcscf/chkfile.py:116-126 *)
Definition dump_1_ops (m : string) (data : list (string * option A)) (o : las) : list op :=
  map (fun kv => Put [m; fst kv] (snd kv)) data
  ++ match frags_orbs o with
     | Some fo => MkGrp [m; "frags_orbs"] :: map (fun iv => Put [m; "frags_orbs"; nstr (fst iv)] (snd iv)) (enum fo)
     | None => []
     end
  ++ match orbsym o with Some a => [Put [m; "mo_coeff_orbsym"] (Some a)] | None => [] end.
(** _dump_las_ci_: mcscf/chkfile.py:128-133; enumerate (None) is a TypeError *)
Definition dump_ci_ops (m : string) (c : option (list (list (option A)))) : list op :=
  match c with
  | None => [Put [m; "ci"] None]
  | Some t => flat_map (fun ir => MkGrp [m; "ci"; nstr (fst ir)]
                 :: map (fun jv => Put [m; "ci"; nstr (fst ir); nstr (fst jv)] (snd jv)) (enum (snd ir))) (enum t)
  end.
(** dump_las: mcscf/chkfile.py:77-93; all writes, in order (method_key is not 'mol') *)
Definition dump_ops (m : string) (keys_config keys_results : list string) (mol : A) (overwrite_mol : bool) (o : las) (f : file) : list op :=
  chkdata_ops mol overwrite_mol m f
  ++ dump_1_ops m (get_data keys_config keys_results o) o
  ++ dump_ci_ops m (ci o).
Definition dump_las m kc kr mol ow o f := run f (dump_ops m kc kr mol ow o f).

(** *** Loading *)
(** state_average_ sets the table and resets e_states and states_converged to [zero] *)
Variable zero : A.
Definition set_attr (k : string) (v : option A) (o : las) : las :=
  mkLas (fun k' => if String.eqb k' k then v else attr o k') (space o) (ci o) (frags_orbs o) (orbsym o).
Definition state_average (sp : string -> option A) (o : las) : las :=
  set_attr "e_states" (Some zero) (set_attr "states_converged" (Some zero)
    (mkLas (attr o) sp (ci o) (frags_orbs o) (orbsym o))).
(** data[key] of the record m *)
Definition dat (m : string) (f : file) (p : path) : res (option A) :=
  match get (m :: p) f with Some a => Ok (Some a) | None => Raise KeyError end.
Definition load_keys (m : string) (f : file) (keys : list string) (o : las) : las :=
  fold_left (fun o k => match get [m; k] f with Some a => set_attr k (Some a) o | None => o end) keys o.
(** _load_las_1_: mcscf/chkfile.py:25-64 (a reloaded mo_coeff has no tag of its own) *)
Definition load_1 (m : string) (kc kr : list string) (o : las) (f : file) : res las :=
  let o := load_keys m f kc o in
  let o := if forallb (fun k => has [m; k] f) KEYS_SACONSTR_LASSCF
           then state_average (fun k => get [m; k] f) o else o in
  let o := load_keys m f kr o in
  bind (if has [m; "frags_orbs"] f
        then bind (mapM (fun i => dat m f ["frags_orbs"; nstr i]) (seq 0 (nfrags o))) (fun fo => Ok (Some fo))
        else Ok (frags_orbs o)) (fun fo =>
  Ok (mkLas (attr o) (space o) (ci o) fo (match get [m; "mo_coeff_orbsym"] f with
                                                     | Some a => Some a
                                                     | None => if has [m; "mo_coeff"] f then None else orbsym o end))).
(** _load_las_ci_: mcscf/chkfile.py:66-75 *)
Definition load_ci (m : string) (o : las) (f : file) : res las :=
  if negb (has [m; "ci"] f) then Raise KeyError else
  bind (mapM (fun i => if has [m; "ci"; nstr i] f
                       then mapM (fun j => dat m f ["ci"; nstr i; nstr j]) (seq 0 (nroots o)) else Raise KeyError)
             (seq 0 (nfrags o))) (fun t =>
  Ok (mkLas (attr o) (space o) (Some t) (frags_orbs o) (orbsym o))).
(** load_las_: mcscf/chkfile.py:9-23 *)
Definition load_las (m : string) (kc kr : list string) (o : las) (f : file) : res las :=
  if has [m] f then bind (load_1 m kc kr o f) (fun o => load_ci m o f) else Raise KeyError.

(** *** LASSIS tables: lassi/lassis/chkfile.py:29-52 and 75-93.
    ci_spin_flips [i][s] and ci_charge_hops [i][a][s][p], None where absent *)
Definition dump_sf_ops (m : string) (nf : nat) (sf : nat -> nat -> option A) : list op :=
  MkGrp [m; "ci_sf"] ::
  flat_map (fun i => MkGrp [m; "ci_sf"; nstr i] ::
    flat_map (fun s => match sf i s with Some a => [Put [m; "ci_sf"; nstr i; nstr s] (Some a)] | None => [] end) (seq 0 2)) (seq 0 nf).
Definition dump_ch_ops (m : string) (nf : nat) (ch : nat -> nat -> nat -> nat -> option A) : list op :=
  MkGrp [m; "ci_ch"] ::
  flat_map (fun i => MkGrp [m; "ci_ch"; nstr i] ::
    flat_map (fun a => MkGrp [m; "ci_ch"; nstr i; nstr a] ::
      flat_map (fun s => MkGrp [m; "ci_ch"; nstr i; nstr a; nstr s] ::
        flat_map (fun p => match ch i a s p with Some x => [Put [m; "ci_ch"; nstr i; nstr a; nstr s; nstr p] (Some x)] | None => [] end)
          (seq 0 2)) (seq 0 4)) (seq 0 nf)) (seq 0 nf).
Definition need (p : path) (f : file) : res unit := if has p f then Ok tt else Raise KeyError.
Definition load_sf (m : string) (nf : nat) (f : file) : res (list (list (option A))) :=
  bind (need [m; "ci_sf"] f) (fun _ =>
  mapM (fun i => bind (need [m; "ci_sf"; nstr i] f) (fun _ =>
    Ok (map (fun s => get [m; "ci_sf"; nstr i; nstr s] f) (seq 0 2)))) (seq 0 nf)).
Definition load_ch (m : string) (nf : nat) (f : file) : res (list (list (list (list (option A))))) :=
  bind (need [m; "ci_ch"] f) (fun _ =>
  mapM (fun i => bind (need [m; "ci_ch"; nstr i] f) (fun _ =>
    mapM (fun a => bind (need [m; "ci_ch"; nstr i; nstr a] f) (fun _ =>
      mapM (fun s => bind (need [m; "ci_ch"; nstr i; nstr a; nstr s] f) (fun _ =>
        Ok (map (fun p => get [m; "ci_ch"; nstr i; nstr a; nstr s; nstr p] f) (seq 0 2)))) (seq 0 4))) (seq 0 nf))) (seq 0 nf)).
End C.
