(** exploratory/unitary_cc/uccsd_sym0.py and uccsd_sym1.py: products of unitary excitation factors
    on the full Fock space.

    An ndarray of determinants is a [vec]; [f64] says whether its dtype is float64 (and it is
    contiguous): np.ascontiguousarray (psi, dtype=np.float64) returns the same array in that case and
    a converted copy otherwise.  An amplitude is an element of [T] with cosine and sine in [K].
    The kernels are those of FsuccModel; where the C code would shift out of range, the call is
    reported as [Raise OverflowError].  Orbital indices are taken to fit into a byte. *)
From Coq Require Import List NArith ZArith Arith Bool.
From Verif Require Import Base Star FsuccModel.
Import ListNotations.

Section Ucc.
Variable K : star_ring.
Variable is0 : K -> bool.
Variable sched : list N -> list N.
Variable T : Type.
(** [my_amp transpose deriv amp] = sgn * (amp + deriv * pi / 2): uccsd_sym0.py:51-52 *)
Variable my_amp : bool -> bool -> T -> T.
Variables cosT sinT : T -> K.
Local Open Scope star_scope.
Let vec : Type := N -> K.
Let gen : Type := (list nat * list nat)%type.

(** _op1u_: uccsd_sym0.py:23-62.  The returned array is discarded by every caller: what is left in
    the argument [psi] is modelled. *)
Definition op1u (f64 : bool) (norb : nat) (g : gen) (amp : T) (psi : vec) (transpose deriv : bool) : res vec :=
  let my := my_amp transpose deriv amp in
  match contract1u K is0 sched norb (fst g) (snd g) (cosT my) (sinT my) psi with
  | Some r => Ok (if f64 then r else psi)
  | None => Raise OverflowError
  end.

(** _projai_: uccsd_sym0.py:98-127 *)
Definition projai_ (f64 : bool) (norb : nat) (g : gen) (psi : vec) : res vec :=
  match projai K norb (fst g) (snd g) psi with
  | Some r => Ok (if f64 then r else psi)
  | None => Raise OverflowError
  end.

(** _op1h_spinsym: uccsd_sym0.py:64-96.  [recip n] = 1/n; [herm] lists the constant and the
    packed arrays of the 1-, 2-, ... electron terms. *)
Variable recip : nat -> K.
Fixpoint op1h_terms (norb : nat) (psi : vec) (ix : nat) (fac : K) (terms : list (nat -> K)) (hpsi : vec) : res vec :=
  match terms with
  | [] => Ok hpsi
  | h :: r =>
      let nelec := S ix in
      let fac := fac * recip nelec in
      match fullhop K is0 sched (fun k => fac * h k) psi hpsi norb nelec with
      | Some hpsi => op1h_terms norb psi (S ix) fac r hpsi
      | None => Raise OverflowError
      end
  end.
Definition op1h_spinsym (norb : nat) (h0 : K) (terms : list (nat -> K)) (psi : vec) : res vec :=
  op1h_terms norb psi 0 s1 terms (fun d => h0 * psi d).

(** class FSUCCOperator *)
Record uop : Type := mkU { u_norb : nat; u_gens : list gen; u_amps : list T }.

(** assert_sanity: uccsd_sym0.py:258-282.  np.amax of an empty array raises ValueError.  Sorted
    arrays of different lengths never compare equal throughout (some numpy versions raise instead). *)
Fixpoint insert_n (x : nat) (l : list nat) : list nat :=
  match l with [] => [x] | y :: r => if (x <=? y)%nat then x :: l else y :: insert_n x r end.
Definition sort_n (l : list nat) : list nat := fold_right insert_n [] l.
Fixpoint nodupb (l : list nat) : bool :=
  match l with [] => true | x :: r => negb (existsb (Nat.eqb x) r) && nodupb r end.
Definition key (g : gen) : list Z * list Z :=
  let a := map Z.of_nat (sort_n (fst g)) in
  let i := map Z.of_nat (sort_n (snd g)) in
  match lexcmp i a with Lt => (i, a) | _ => (a, i) end.
Definition key_dec : forall x y : list Z * list Z, {x = y} + {x <> y}.
Proof. decide equality; apply list_eq_dec, Z.eq_dec. Defined.
Definition list_eqb (a b : list nat) : bool := if list_eq_dec Nat.eq_dec a b then true else false.
Fixpoint sane_gens (norb : nat) (gens : list gen) : res unit :=
  match gens with
  | [] => Ok tt
  | (a, i) :: r =>
      match i ++ a with
      | [] => Raise ValueError
      | p =>
          py_assert (forallb (fun q => (q <? norb)%nat) p)
          (py_assert (nodupb a)
          (py_assert (nodupb i)
          (py_assert (match a, i with _ :: _, _ :: _ => negb (list_eqb (sort_n a) (sort_n i)) | _, _ => true end)
          (sane_gens norb r))))
      end
  end.
Definition assert_sanity (norb : nat) (gens : list gen) : res unit :=
  do _ <- sane_gens norb gens ;;
  py_assert (length (nodup key_dec (map key gens)) =? length gens)%nat (Ok tt).

(** __init__: uccsd_sym0.py:160-167; [t0] = 0.0 *)
Variable t0 : T.
Definition init (norb : nat) (a_idxs i_idxs : list (list nat)) : res uop :=
  let ngen := length a_idxs in
  py_assert (length i_idxs =? ngen)%nat
  (do _ <- assert_sanity norb (combine a_idxs i_idxs) ;;
   Ok (mkU norb (combine a_idxs i_idxs) (repeat t0 ngen))).

(** set_uniq_amps_ of the base class, for an array of the right length: uccsd_sym0.py:300-309 *)
Definition set_amps (u : uop) (x : list T) : uop := mkU (u_norb u) (u_gens u) x.

(** gen_fac: uccsd_sym0.py:169-177 *)
Definition item : Type := (nat * (gen * T))%type.
Definition gen_fac (u : uop) (reverse : bool) (ustart : option nat) : list item :=
  let all := combine (seq 0 (length (u_gens u))) (combine (u_gens u) (u_amps u)) in
  if reverse then rev (match ustart with None => all | Some k => firstn (S k) all end)
  else match ustart with None => all | Some k => skipn k all end.

(** __call__: uccsd_sym0.py:284-288 *)
Fixpoint apply_items (f64 : bool) (norb : nat) (transpose : bool) (l : list item) (psi : vec) : res vec :=
  match l with
  | [] => Ok psi
  | (_, (g, amp)) :: r => do psi <- op1u f64 norb g amp psi transpose false ;; apply_items f64 norb transpose r psi
  end.
Definition call (u : uop) (f64 transpose : bool) (psi : vec) : res vec :=
  apply_items f64 (u_norb u) transpose (gen_fac u transpose None) psi.

(** get_deriv1 with _cache=True: uccsd_sym0.py:179-232 *)
Fixpoint deriv_loop (f64 : bool) (norb igend : nat) (transpose full : bool) (l : list item) (psi : vec) (cache : option vec)
    : res (vec * option vec) :=
  match l with
  | [] => Ok (psi, cache)
  | (ix, (g, amp)) :: r =>
      let hit := (ix =? igend)%nat in
      do st <- (if hit then do p <- projai_ f64 norb g psi ;; Ok (p, Some psi) else Ok (psi, cache)) ;;
      do psi' <- op1u f64 norb g amp (fst st) transpose hit ;;
      if hit && negb full then Ok (psi', snd st)
      else deriv_loop f64 norb igend transpose full r psi' (snd st)
  end.
Definition get_deriv1 (u : uop) (f64 : bool) (psi : vec) (igend : nat) (transpose : bool) (ustart : option nat) (full : bool)
    : res (vec * option vec) :=
  if match ustart with Some k => (igend <? k)%nat | None => false end then Raise RuntimeError
  else deriv_loop f64 (u_norb u) igend transpose full (gen_fac u transpose ustart) psi None.

(** gen_deriv1: uccsd_sym0.py:236-248: the vectors yielded, and the exception that ends the
    iteration, if any.  get_deriv1 works in the array it is given, which then belongs to the consumer;
    the partial product for the next step is a copy. *)
Fixpoint gd_loop (u : uop) (f64 transpose full : bool) (l : list nat) (upsi : option vec) (ustart : option nat)
    : list vec * option exn :=
  match l with
  | [] => ([], None)
  | igend :: r =>
      match upsi with
      | None => ([], Some TypeError)
      | Some v =>
          match get_deriv1 u f64 v igend transpose ustart full with
          | Raise e => ([], Some e)
          | Ok (d, upsi) => let '(ys, e) := gd_loop u f64 transpose full r upsi (Some igend) in (d :: ys, e)
          end
      end
  end.
Definition gen_deriv1 (u : uop) (f64 : bool) (psi : vec) (transpose full : bool) : list vec * option exn :=
  let ngen := length (u_gens u) in
  gd_loop u f64 transpose full (if transpose then rev (seq 0 ngen) else seq 0 ngen) (Some psi) None.

(** gen_partial: uccsd_sym0.py:250-256: contents of the (one) array at each yield *)
Fixpoint gp_loop (f64 : bool) (norb : nat) (transpose : bool) (l : list item) (psi : vec) : res (list vec) :=
  match l with
  | [] => Ok []
  | (_, (g, amp)) :: r =>
      do psi <- op1u f64 norb g amp psi transpose false ;;
      do ys <- gp_loop f64 norb transpose r psi ;; Ok (psi :: ys)
  end.
Definition gen_partial (u : uop) (f64 transpose : bool) (psi : vec) : res (list vec) :=
  gp_loop f64 (u_norb u) transpose (gen_fac u transpose None) psi.

(** obj_fun: uccsd_sym0.py:426-437 *)
Definition dot (norb : nat) (u v : vec) : K := bsum (nrange (bit norb)) (fun d => sconj (u d) * v d).
Definition obj_fun (u : uop) (hop : vec -> vec) (psi0 : vec) (x : list T) : res (K * list K) :=
  let u := set_amps u x in
  do upsi <- call u true false psi0 ;;
  let hupsi := hop upsi in
  let e_tot := dot (u_norb u) upsi hupsi in
  do uhupsi <- call u true true hupsi ;;
  let '(dus, e) := gen_deriv1 u true psi0 false false in
  do uhus <- gen_partial u true false uhupsi ;;
  match e with
  | Some e => Raise e
  | None => Ok (e_tot, map (fun p => (s1 + s1) * dot (u_norb u) (fst p) (snd p)) (combine dus uhus))
  end.

(** uccsd_sym1.FSUCCOperator.set_uniq_amps_, get_uniq_amps, product_rule_pack: uccsd_sym1.py:147-179.
    [symtab] lists, for each unique amplitude, the generators that carry it. *)
Fixpoint set_uniq (symtab : list (list nat)) (x : list T) (amps : list T) : list T :=
  match symtab, x with
  | row :: symtab, xi :: x => set_uniq symtab x (fold_left (fun amps k => upd k (fun _ => xi) amps) row amps)
  | _, _ => amps
  end.
Definition get_uniq (symtab : list (list nat)) (amps : list T) : list T :=
  map (fun row => nth (hd 0%nat row) amps t0) symtab.
Definition rule_pack (symtab : list (list nat)) (ngen : nat) (g : list K) : res (list K) :=
  py_assert (length g =? ngen)%nat (Ok (map (fun row => bsum row (fun k => nth k g s0)) symtab)).
(** obj_fun of an operator of uccsd_sym1 *)
Definition obj_uniq (symtab : list (list nat)) (u : uop) (hop : vec -> vec) (psi0 : vec) (x : list T) : res (K * list K) :=
  do r <- obj_fun u hop psi0 (set_uniq symtab x (u_amps u)) ;;
  do g <- rule_pack symtab (length (u_gens u)) (snd r) ;;
  Ok (fst r, g).
End Ucc.
