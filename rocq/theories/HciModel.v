(** Contraction of a Hamiltonian acting on CI vectors with SI vectors: hci_dot_sivecs_ij, lassi/citools.py:223-245, and the action of the
    Hamiltonian in contract_ham_ci of the determinant code, lassi/op_o0.py:643-657.  The two axes of CI coefficients of a fragment are one index. *)
From Coq Require Import List Arith Bool.
From Verif Require Import Base Star AddrModel TransModel StdmModel StdmFacts RdmModel.
Import ListNotations.
Local Open Scope nat_scope.

Section Dot.
  Context {K : star_ring}.
  (** an SI vector, or several as the columns of an array with two axes *)
  Inductive sivec := One (c : list K) | Many (cs : list (list K)).
  Definition cols (v : sivec) : list (list K) := match v with One c => [c] | Many cs => cs end.
  (** result for fragment i and rootspace j: elements [x,ab]; [n,x,ab]; [p,ab,q] not contracted with the bra, q absent after an SI vector with
      one axis; [n,x,ab,q] not contracted with the ket *)
  Inductive hci_out := Both1 (r : nat -> nat -> K) | Both2 (r : nat -> nat -> nat -> K) | KetOnly (r : nat -> nat -> nat -> K) | KetOnly1 (r : nat -> nat -> K)
    | BraOnly (r : nat -> nat -> nat -> nat -> K) | Neither (r : nat -> nat -> nat -> K).
  (** np, nq: extents of the first and last axis of hci_pabq *)
  Definition hci_dot (lroots : list (list nat)) (i j np nq : nat) (hci : nat -> nat -> nat -> K) (bra ket : option sivec) : res hci_out :=
    (* lines 227-228, np.tensordot *)
    let fits := match ket with Some k => forallb (fun c => length c =? nq) (cols k) | None => true end in
    if negb fits then Raise ValueError else
    let hk p ab n := match ket with Some k => bsum (seq 0 nq) (fun q => smul (hci p ab q) (nth q (nth n (cols k) []) s0)) | None => hci p ab n end in
    match bra with
    | None => Ok match ket with None => Neither hci | Some (One _) => KetOnly1 (fun p ab => hk p ab 0) | Some (Many _) => KetOnly hk end
    | Some b =>
      (* lines 232-234: column-major slice of the rootspace, fragment i slow *)
      do d <- make_fragments_slow s0 (si_slice lroots (cols b) j) (column lroots j) [i] ;;
      let '(_, (ncols, _, nsi)) := d in
      if negb (ncols =? np) then Raise ValueError else
      let full n x ab m := bsum (seq 0 np) (fun p => smul (sconj (si_at d n x p)) (hk p ab m)) in
      match ket with
      | None => Ok (BraOnly full)
      (* lines 236-238 *)
      | Some (One _) => if nsi =? 1 then Ok (Both1 (fun x ab => full 0 x ab 0)) else Raise AssertionError
      (* lines 239-243 *)
      | Some (Many cs) => if negb (nsi =? length cs) then Raise AssertionError else
          match b with One _ => Ok (Both1 (fun x ab => full 0 x ab 0)) | Many _ => Ok (Both2 (fun n x ab => full n x ab n)) end
      end
    end.
  (** contract_h: op_o0.py:647-657.  h_re: absorb_h1e and contract_2e of PySCF, h_im: contract_1e_nosym with the imaginary part of h1 *)
  Definition contract_h (im : K) (soc : bool) (h0 : K) (h_re h_im : (nat -> K) -> nat -> K) (c : nat -> K) : nat -> K :=
    let re := fun x => sadd (h_re c x) (smul h0 (c x)) in
    if soc then fun x => sadd (sadd (re x) (smul im (h_im c x))) (smul h0 (c x)) else re.
End Dot.
Arguments sivec K : clear implicits.
