(** Assembling the transition density matrices from the unique interactions: lassi/op_o1/stdm.py:553-724 (_get_addr_range,
    _prepare_spec_addr_ovlp_, _get_spec_addr_ovlp, _get_spec_addr_ovlp_1space, _put_D1_, _put_D2_) and 1063-1083 (_loop_lroots_,
    _crunch_all_, _add_transpose_).  The matrix elements of the operators on the involved fragments are an input; tdm1s and tdm2s
    are one array whose entries x (array, spin block, orbitals) are exchanged by [tr] in a conjugate transposition.
    Arithmetic is exact. *)
From Coq Require Import List ZArith Bool Arith.
From Verif Require Import Base Star AddrModel ExcModel UexcModel.
Import ListNotations.
Local Open Scope nat_scope.

(** strides: lines 100-103; one column of the table, running products *)
Fixpoint strides_from (acc : nat) (col : list nat) : list nat :=
  match col with [] => [] | d :: r => acc :: strides_from (acc * d) r end.
Definition strides (lroots : list (list nat)) (r : nat) : list nat := strides_from 1 (column lroots r).
(** np.dot of integer vectors *)
Fixpoint dotN (a b : list nat) : nat := match a, b with x :: a', y :: b' => x * y + dotN a' b' | _, _ => 0 end.
(** offs_lroots[:,0]: lines 93-96 *)
Definition addr0 (lroots : list (list nat)) (r : nat) : nat :=
  nth r (offs0 (map (fun i => prodN (column lroots i)) (seq 0 (length (hd [] lroots))))) 0.
(** envaddr[a] *)
Definition env_at (fragaddr : list (list nat)) (a : nat) : list nat := map (fun row => nth a row 0) fragaddr.

Section Stdm.
  Context {K : star_ring} {X : Type}.
  Variable half : K.
  (** np.abs (o) > 1e-8 *)
  Variable big : K -> bool.
  Variable tr : X -> X.
  (** list (set (...)) *)
  Variable pyset : list nat -> list nat.
  (** rows: fragments; columns: rootspaces *)
  Variable lroots : list (list nat).
  (** ints[f].get_ovlp (rbra, rket) *)
  Variable ovlp : nat -> nat -> nat -> list (list K).
  Variable spin_shuffle : nat -> K.
  Variable frag_shuffle : nat -> list nat -> K.

  (** _get_addr_range: lines 553-578 (get_rootaddr_fragaddr of a single column) *)
  Definition get_addr_range (r : nat) (inv : list nat) : list nat :=
    let inv := pyset inv in
    let col := map (fun f => nth f (column lroots r) 0) inv in
    map (fun a => addr0 lroots r + dotN (map (fun f => nth f (strides lroots r) 0) inv)
                                     (map (fun i => nth a (frag_addrs col i) 0) (seq 0 (length inv))))
      (seq 0 (prodN col)).

  (** np.multiply.outer (a, b).transpose (0,2,1,3).reshape (...): lines 682-683 *)
  Definition kron (a b : list (list K)) : list (list K) :=
    flat_map (fun ra => map (fun rb => flat_map (fun x => map (fun y => smul x y) rb) ra) b) a.
  (** _get_spec_addr_ovlp_1space: lines 648-694 *)
  Definition spec_addr_ovlp_1space (rbra rket : nat) (inv : list nat) : list (nat * nat * K) :=
    let inv := pyset inv in
    let fac := smul (smul (smul (spin_shuffle rbra) (spin_shuffle rket)) (frag_shuffle rbra inv)) (frag_shuffle rket inv) in
    let spec := filter (fun f => negb (existsb (Nat.eqb f) inv)) (seq 0 (length lroots)) in
    let bra_rng := get_addr_range rbra spec in
    let ket_rng := get_addr_range rket spec in
    let o := fold_left (fun o f => kron (ovlp f rbra rket) o) spec [[fac]] in
    flat_map (fun i => flat_map (fun j =>
      let v := nth j (nth i o []) s0 in
      let keep := big v && (if rbra =? rket then j <=? i else true) in
      if keep then [(nth i bra_rng 0, nth j ket_rng 0, if (rbra =? rket) && (i =? j) then smul v half else v)] else [])
      (seq 0 (length (nth i o [])))) (seq 0 (length o)).

  Definition tdm := nat -> nat -> X -> K.
  (** tdm[b,k] += D * w: lines 710-716, 736-742 *)
  Definition put1 (D : X -> K) (t : tdm) (e : nat * nat * K) : tdm :=
    let '(b, k, w) := e in fun b' k' x => if (b =? b') && (k =? k') then sadd (t b' k' x) (smul (D x) w) else t b' k' x.

  (** rootaddr and the transpose of envaddr *)
  Variables (rootaddr : list nat) (fragaddr : list (list nat)).
  (** _get_spec_addr_ovlp: lines 602-646, with the cache of _prepare_spec_addr_ovlp_ (lines 580-600) *)
  Definition spec_addr_ovlp (cache : list (nat * nat * list (nat * nat * K))) (bra ket : nat) : list (nat * nat * K) :=
    flat_map (fun c => let '(rbra1, rket1, l) := c in
      let dbra := dotN (env_at fragaddr bra) (strides lroots rbra1) in
      let dket := dotN (env_at fragaddr ket) (strides lroots rket1) in
      map (fun e => let '(b, k, o) := e in (b + dbra, k + dket, o)) l) cache.
  (** matrix elements computed by a cruncher from the kind of interaction, the fragments and spin of its row, and rootspace and
      local states of the bra and of the ket (FragTDMInt.try_get_1, lassi/op_o1/frag.py:206-211) *)
  Variable crunch_D : nat -> list nat -> option nat -> nat * list nat -> nat * list nat -> X -> K.
  Definition state_of (a : nat) : nat * list nat := (nth a rootaddr 0, env_at fragaddr a).
  Variable nonuniq_exc : list ((nat * nat * list nat) * list (nat * nat)).
  (** _loop_lroots_: lines 1063-1069 *)
  Definition loop_lroots (lbl : nat) (t : tdm) (row : erow) : res tdm :=
    match get_key (key_of row) nonuniq_exc with
    | None => Raise KeyError
    | Some table =>
        let inv := e_frags row in
        let cache := map (fun p => (fst p, snd p, spec_addr_ovlp_1space (fst p) (snd p) inv)) table in
        Ok (fold_left (fun t p => fold_left (put1 (crunch_D lbl inv (e_spin row) (state_of (fst p)) (state_of (snd p)))) (spec_addr_ovlp cache (fst p) (snd p)) t)
              (list_prod (get_addr_range (e_bra row) inv) (get_addr_range (e_ket row) inv)) t)
    end.
  Fixpoint loop_rows (lbl : nat) (rows : list erow) (t : tdm) : res tdm :=
    match rows with [] => Ok t | r :: rs => do t' <- loop_lroots lbl t r ;; loop_rows lbl rs t' end.
  Fixpoint loop_tables (lbl : nat) (tabs : list (list erow)) (t : tdm) : res tdm :=
    match tabs with [] => Ok t | l :: ls => do t' <- loop_rows lbl l t ;; loop_tables (S lbl) ls t' end.
  (** _add_transpose_: lines 1081-1083 *)
  Definition add_transpose (t : tdm) : tdm := fun b k x => sadd (t b k x) (sconj (t k b (tr x))).
  (** _crunch_all_: lines 1071-1079; the tables are exc_1d, exc_2d, exc_1c, exc_1c1d, exc_1s, exc_1s1c, exc_2c *)
  Definition crunch_all (tabs : list (list erow)) : res tdm :=
    do t <- loop_tables 0 tabs (fun _ _ _ => s0) ;; Ok (add_transpose t).
End Stdm.
