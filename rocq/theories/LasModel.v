(** State tables of a LASCI/LASSCF object: my_pyscf/mcscf/lasci.py and my_pyscf/mcscf/addons.py. *)
From Coq Require Import List ZArith Arith Bool.
From Verif Require Import Base.
Import ListNotations.
Local Open Scope Z_scope.

(** The attributes of a component solver that enter the quantum numbers. *)
Record solver := mkSolver { s_charge : option Z; s_spin : option Z; s_smult : option Z; s_wfnsym : option Z }.

(** StateAverageNMixFCISolver._get_nelec: mcscf/addons.py:11-17 (// is floor division) *)
Definition get_nelec (nelec : Z * Z) (s : solver) : Z * Z :=
  let n := fst nelec + snd nelec in
  let m := match s_spin s with Some m => m | None => n mod 2 end in
  let c := match s_charge s with Some c => c | None => 0 end in
  let n := n - c in
  ((n + m) / 2, (n - m) / 2).

(** One entry of the tables of quantum numbers. *)
Record qn := mkQ { q_charge : Z; q_spin : Z; q_smult : Z; q_wfnsym : Z }.
Definition qn_eqb (a b : qn) : bool :=
  (q_charge a =? q_charge b) && (q_spin a =? q_spin b) && (q_smult a =? q_smult b) && (q_wfnsym a =? q_wfnsym b).
Fixpoint row_eqb (a b : list qn) : bool :=
  match a, b with
  | [], [] => true
  | x :: a', y :: b' => qn_eqb x y && row_eqb a' b'
  | _, _ => false
  end.

Section Las.
Context {C : Type}.   (* CI vectors *)
Record las := mkLas {
  las_nelec : list (Z * Z);              (* nelecas_sub *)
  las_nroots : nat;
  las_boxes : list (list solver);        (* fciboxes[ifrag].fcisolvers[iroot] *)
  las_ci : option (list (list (option C)))   (* ci[ifrag][iroot] *)
}.
Definition nfrags (l : las) : nat := length (las_nelec l).

(** body of get_space_info: lasci.py:478-486 *)
Definition info (nelec : Z * Z) (s : solver) : qn :=
  let ne := get_nelec nelec s in
  let spin := fst ne - snd ne in
  mkQ (fst nelec + snd nelec - (fst ne + snd ne)) spin
      (match s_smult s with Some x => x | None => Z.abs spin + 1 end)
      (match s_wfnsym s with Some w => w | None => 0 end).

(** get_space_info: lasci.py:472-487; the arrays start as zeros *)
Definition info_at (l : las) (r f : nat) : qn :=
  match nth_error (las_boxes l) f, nth_error (las_nelec l) f with
  | Some box, Some ne => match nth_error box r with Some s => info ne s | None => mkQ 0 0 0 0 end
  | _, _ => mkQ 0 0 0 0
  end.
Definition get_space_info (l : las) : list (list qn) :=
  map (fun r => map (info_at l r) (seq 0 (nfrags l))) (seq 0 (las_nroots l)).

(** Input tables [state][fragment] *)
Definition table := list (list Z).
Definition at_ (t : table) (r f : nat) : Z := nth f (nth r t []) 0.
Definition shape_ok (nr nf : nat) (t : table) : bool :=
  (length t =? nr)%nat && forallb (fun row => (length row =? nf)%nat) t.

(** Duplicate rows: assert_no_duplicates: lasci.py:501-526 *)
Fixpoint no_dupes (t : list (list qn)) : bool :=
  match t with [] => true | x :: r => negb (existsb (row_eqb x) r) && no_dupes r end.

(** np.where (np.all (new_states == row, axis=1)) *)
Definition matches (new : list (list qn)) (row : list qn) : list nat :=
  filter (fun j => match nth_error new j with Some x => row_eqb x row | None => false end) (seq 0 (length new)).

(** lasci.py:635-652: carry cached CI vectors over *)
Definition column (ci : list (list (option C))) (i : nat) : res (list (option C)) :=
  mapM (fun fr => match nth_error fr i with Some x => Ok x | None => Raise IndexError end) ci.
Fixpoint put_column (j : nat) (ci : list (list (option C))) (col : list (option C)) : list (list (option C)) :=
  match ci, col with
  | fr :: ci', x :: col' => upd j (fun _ => x) fr :: put_column j ci' col'
  | _, _ => ci
  end.
Fixpoint transfer (new : list (list qn)) (ci : list (list (option C))) (i : nat) (old : list (list qn))
                  (ci0 : list (list (option C))) : res (list (list (option C))) :=
  match old with
  | [] => Ok ci0
  | row :: old' =>
      match matches new row with
      | [] => transfer new ci (S i) old' ci0
      | [j] => do col <- column ci i ;; transfer new ci (S i) old' (put_column j ci0 col)
      | _ => Raise RuntimeError
      end
  end.

(** state_average_: lasci.py:528-655, without local state averaging (lroots, lweights) and with
    integer wfnsyms.  Shapes other than (number of weights, number of fragments) are rejected at once;
    the code meets the inconsistency somewhat later (np.stack, state_average_mix, reshape). *)
Definition state_average_ (l : las) (nweights : nat) (charges spins smults wfnsyms : option table)
           (assert_no_dupes : bool) : res las :=
  let nf := nfrags l in
  let old := get_space_info l in
  let zeros := repeat (repeat 0 nf) nweights in
  let charges := match charges with Some t => t | None => zeros end in
  let wfnsyms := match wfnsyms with Some t => t | None => zeros end in
  let spins := match spins with Some t => t | None => repeat (map (fun n => fst n - snd n) (las_nelec l)) nweights end in
  let smults := match smults with Some t => t | None => map (map (fun m => Z.abs m + 1)) spins end in
  if negb (forallb (shape_ok nweights nf) [charges; spins; smults; wfnsyms]) then Raise ValueError
  else
    let new := map (fun r => map (fun f => mkQ (at_ charges r f) (at_ spins r f) (at_ smults r f) (at_ wfnsyms r f))
                              (seq 0 nf)) (seq 0 nweights) in
    if assert_no_dupes && negb (no_dupes new) then Raise AssertionError
    else
      let boxes := map (fun f => map (fun r => mkSolver (Some (at_ charges r f)) (Some (at_ spins r f))
                                                        (Some (at_ smults r f)) (Some (at_ wfnsyms r f)))
                                 (seq 0 nweights)) (seq 0 nf) in
      match las_ci l with
      | None => Ok (mkLas (las_nelec l) nweights boxes None)
      | Some ci =>
          do ci' <- transfer new ci 0 old (repeat (repeat None nweights) nf) ;;
          Ok (mkLas (las_nelec l) nweights boxes (Some ci'))
      end.
End Las.
Arguments las : clear implicits.

(** *** get_mo_slice: lasci.py:926-932.  Columns of the orbital matrix as a list; idx as in Python. *)
Definition py_index {A} (l : list A) (i : Z) : res A :=
  let n := Z.of_nat (length l) in
  let i' := if i <? 0 then i + n else i in
  if (i' <? 0) || (n <=? i') then Raise IndexError
  else match nth_error l (Z.to_nat i') with Some x => Ok x | None => Raise IndexError end.
(** l[:i] *)
Definition py_upto {A} (l : list A) (i : Z) : list A :=
  let n := Z.of_nat (length l) in
  firstn (Z.to_nat (if i <? 0 then i + n else i)) l.
Definition get_mo_slice {M} (mo : list M) (ncore : nat) (ncas_sub : list nat) (idx : Z) : res (list M) :=
  let mo := fold_left (fun mo offs => skipn offs mo) (py_upto ncas_sub idx) (skipn ncore mo) in
  do n <- py_index ncas_sub idx ;; Ok (firstn n mo).

(** *** Convergence flag: mcscf/addons.py:157-158.  [np.all] of a generator object looks at the truth value
    of the generator, which is True. *)
Inductive pyval : Set := VBool (b : bool) | VGenerator (l : list bool).
Definition truth (v : pyval) : bool := match v with VBool b => b | VGenerator _ => true end.
Definition np_all (v : pyval) : bool := truth v.
Definition converged_flag (solvers : list (option bool)) : bool :=
  np_all (VGenerator (map (fun c => match c with Some b => b | None => true end) solvers)).

(** *** _loop_civecs: mcscf/addons.py:118-134.  An argument is either a per-state/per-solver container
    (pyscf's StateAverageMixFCISolver_{state,solver}_args: subscripting a wrapped None gives None) or
    an ordinary object, whose own subscription is [sub]. *)
Section Loop.
Context {V K : Type} (sub : V -> nat -> res V) (none : V).
Inductive arg := PerItem (l : option (list V)) | Plain (v : V).
Definition is_per (a : arg) : bool := match a with PerItem _ => true | Plain _ => false end.
Definition subscript (a : arg) (i : nat) : res V :=
  match a with
  | PerItem None => Ok none
  | PerItem (Some l) => match nth_error l i with Some v => Ok v | None => Raise IndexError end
  | Plain v => sub v i
  end.
(** the object itself handed over: a container stays a container *)
Inductive given := GVal (v : V) | GContainer (l : option (list V)).
Definition whole (a : arg) : given := match a with PerItem l => GContainer l | Plain v => GVal v end.
Definition hand (test item : arg) (i : nat) : res given :=
  if is_per test then (do v <- subscript item i ;; Ok (GVal v)) else Ok (whole item).
Definition my_args (args : list arg) (i : nat) : res (list given) := mapM (fun a => hand a a i) args.
(** the keyword loop tests [arg], the last positional argument (unbound if there is none) *)
Definition my_kwargs (args : list arg) (kwargs : list (K * arg)) (i : nat) : res (list (K * given)) :=
  match kwargs with
  | [] => Ok []
  | _ => match rev args with
         | [] => Raise NameError
         | a :: _ => mapM (fun kv => do g <- hand a (snd kv) i ;; Ok (fst kv, g)) kwargs
         end
  end.
Definition loop_civecs (nsolvers : nat) (args : list arg) (kwargs : list (K * arg)) : res (list (list given * list (K * given))) :=
  mapM (fun i => do a <- my_args args i ;; do k <- my_kwargs args kwargs i ;; Ok (a, k)) (seq 0 nsolvers).
End Loop.
Arguments arg : clear implicits. Arguments given : clear implicits.
