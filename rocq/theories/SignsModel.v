(** Model of the sign-factor functions of my_pyscf/lassi/op_o1/utilities.py and of the iteration
    order of CPython sets of small non-negative integers, on which two of them depend.

    Simplifications: electron numbers and fragment indices are natural numbers (no negative Python
    indices). *)
From Coq Require Import List Arith NArith Lia Bool.
From Verif Require Import Base.
Import ListNotations.

(** seq[k] for a Python list *)
Definition pyget {A} (l : list A) (k : nat) : res A :=
  match nth_error l k with Some x => Ok x | None => Raise IndexError end.

Definition sumN (l : list nat) : nat := fold_right Nat.add 0 l.

(** sum ([l[j] for j in ix]) *)
Definition sum_at (l : list nat) (ix : list nat) : res nat :=
  do v <- mapM (pyget l) ix ;; Ok (sumN v).

(** true = -1, false = +1:  (1,-1)[nperms%2] *)
Definition sign (nperms : nat) : bool := Nat.odd nperms.

(** fermion_spin_shuffle: op_o1/utilities.py:33-38 *)
Definition fermion_spin_shuffle (na nb : list nat) : res bool :=
  py_assert (Nat.eqb (length na) (length nb))
    (Ok (sign (sumN (map (fun p => sumN (firstn (fst p + 1) na) * snd p)
                      (combine (seq 0 (length (tl nb))) (tl nb)))))).

(** ** CPython set (Objects/setobject.c, version 3.7 and later), keys are non-negative ints, for
    which hash (k) = k.  Table = list of slots; LINEAR_PROBES = 9, PERTURB_SHIFT = 5. *)
Definition stable := list (option nat).
Inductive probe := Found | Free (i : nat) | Next.

(** the inner do-while over [n] consecutive slots *)
Fixpoint probe_lin (t : stable) (key i n : nat) : probe :=
  match n with
  | O => Next
  | S n' =>
      match nth i t None with
      | None => Free i
      | Some k => if Nat.eqb k key then Found else probe_lin t key (S i) n'
      end
  end.

Fixpoint probe_loop (fuel : nat) (t : stable) (key i perturb : nat) : res (option nat) :=
  (* Some slot: insert there; None: already present *)
  match fuel with
  | O => Raise RuntimeError
  | S fuel' =>
      let mask := length t - 1 in
      let n := if i + 9 <=? mask then 10 else 1 in
      match probe_lin t key i n with
      | Found => Ok None
      | Free j => Ok (Some j)
      | Next => let perturb' := perturb / 32 in
                probe_loop fuel' t key ((i * 5 + 1 + perturb') mod (length t)) perturb'
      end
  end.

Definition put (t : stable) (i key : nat) : stable := upd i (fun _ => Some key) t.
Definition used (t : stable) : nat := length (filter (fun o => match o with Some _ => true | None => false end) t).
Definition elems (t : stable) : list nat := flat_map (fun o => match o with Some k => [k] | None => [] end) t.

Definition set_insert (t : stable) (key : nat) : res stable :=
  do o <- probe_loop (64 + 8 * length t) t key (key mod length t) key ;;
  match o with None => Ok t | Some i => Ok (put t i key) end.

(** smallest power of two >= 8 that is > minused *)
Fixpoint grow (fuel size minused : nat) : nat :=
  match fuel with
  | O => size
  | S f => if minused <? size then size else grow f (size * 2) minused
  end.

Fixpoint reinsert (keys : list nat) (t : stable) : res stable :=
  match keys with
  | [] => Ok t
  | k :: r => do t' <- set_insert t k ;; reinsert r t'
  end.

(** set_add_entry followed by the load-factor test and set_table_resize *)
Definition set_add (t : stable) (key : nat) : res stable :=
  do t1 <- set_insert t key ;;
  if Nat.eqb (used t1) (used t) then Ok t1
  else
    let u := used t1 in
    if u * 5 <? (length t1 - 1) * 3 then Ok t1
    else reinsert (elems t1)
           (repeat None (grow (S (4 * u)) 8 (if N.ltb 50000 (N.of_nat u) then u * 2 else u * 4))).

Fixpoint set_of (l : list nat) (t : stable) : res stable :=
  match l with
  | [] => Ok t
  | k :: r => do t' <- set_add t k ;; set_of r t'
  end.

(** list (set (l)) *)
Definition list_set (l : list nat) : res (list nat) :=
  do t <- set_of l (repeat None 8) ;; Ok (elems t).

(** fermion_frag_shuffle: utilities.py:60-68; [l] is the previous fragment, difference in Z so that
    it may be negative *)
Fixpoint frag_loop (nelec : list nat) (l : nat) (rest : list nat) (nbtwn nperms : nat) : res nat :=
  match rest with
  | [] => Ok nperms
  | f :: rest' =>
      do nbtwn' <- (if l + 1 <? f
                    then do s <- sum_at nelec (seq (l + 1) (f - (l + 1))) ;; Ok (nbtwn + s)
                    else Ok nbtwn) ;;
      do nperms' <- (if Nat.eqb nbtwn' 0 then Ok nperms
                     else do n <- pyget nelec f ;; Ok (nperms + n * nbtwn')) ;;
      frag_loop nelec f rest' nbtwn' nperms'
  end.

Definition fermion_frag_shuffle (nelec : list nat) (frag_list : list nat) : res bool :=
  do fl <- list_set frag_list ;;
  match fl with
  | [] => Ok (sign 0)
  | l :: rest => do n <- frag_loop nelec l rest 0 0 ;; Ok (sign n)
  end.

(** list.index *)
Fixpoint index_of (x : nat) (l : list nat) : option nat :=
  match l with
  | [] => None
  | y :: r => if Nat.eqb x y then Some 0 else option_map S (index_of x r)
  end.

(** fermion_des_shuffle: utilities.py:86-94 *)
Definition fermion_des_shuffle (nelec : list nat) (frag_list : list nat) (i : nat) : res bool :=
  py_assert (existsb (Nat.eqb i) frag_list)
    (do fl0 <- list_set frag_list ;;
     let fl := rev fl0 in
     do ns <- mapM (pyget nelec) fl ;;
     match index_of i fl with
     | None => Raise ValueError
     | Some k => Ok (sign (sumN (firstn k ns)))
     end).
