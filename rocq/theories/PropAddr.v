(** Properties C14 and C15: addresses of LASSI model states. *)
From Coq Require Import List ZArith Lia.
From Verif Require Import Base AddrModel AddrSpec AddrProofs AddrBlocks AddrLroots.
Import ListNotations.
Local Open Scope nat_scope.

(** C14.  For every rectangular table of local root counts the function succeeds; it lists as many
    states as there are product states; every position carries a state; and position k carries
    (rootspace r, local indices ds) iff r and ds are in range and k is the number of states of the
    earlier rootspaces plus the position of ds with the first fragment fastest.  Hence the pairs are
    all different and every combination occurs exactly once. *)
Theorem C14_rootaddr_fragaddr_bijection : forall lroots nroots,
  lroots <> [] -> Forall (fun row => length row = nroots) lroots ->
  exists ra fa, get_rootaddr_fragaddr lroots = Ok (ra, fa) /\
    length ra = states_before lroots nroots /\
    length fa = length lroots /\
    Forall (fun row => length row = length ra) fa /\
    (forall k, k < length ra -> exists r ds, state_at ra fa k r ds) /\
    (forall k r ds, state_at ra fa k r ds <->
       r < nroots /\ in_range (dims_of lroots r) ds /\
       k = states_before lroots r + colmajor (dims_of lroots r) ds).
Proof. exact rootaddr_fragaddr_spec. Qed.
Print Assumptions C14_rootaddr_fragaddr_bijection.

(** get_lroots returns the table of state counts exactly for sequences that never mix arrays and
    sequences at one level, and raises RuntimeError otherwise. *)
Theorem C14_get_lroots : forall ci,
  (forall t, get_lroots ci = Ok t <-> counts (Seq ci) t) /\
  (forall e, get_lroots ci = Raise e -> e = RuntimeError).
Proof. exact (fun ci => conj (get_lroots_spec ci) (get_lroots_error ci)). Qed.
Print Assumptions C14_get_lroots.

(** two fragments, three rootspaces, one of them empty *)
Example C14_example :
  get_rootaddr_fragaddr [[2; 3; 1]; [2; 0; 2]]
  = Ok ([0; 0; 0; 0; 2; 2], [[0; 1; 0; 1; 0; 0]; [0; 0; 1; 1; 0; 1]]).
Proof. vm_compute; reflexivity. Qed.
Example C14_example_state :
  state_at [0; 0; 0; 0; 2; 2] [[0; 1; 0; 1; 0; 0]; [0; 0; 1; 1; 0; 1]] 2 0 [0; 1].
Proof. split; [reflexivity|]. repeat constructor. Qed.
Example C14_example_lroots :
  get_lroots [Seq [Arr [4; 4]; Arr [3; 4; 4]]; Seq [Arr [6; 1]; Arr [2; 6; 1]]]
  = Ok (LList [LList [LNum 1; LNum 3]; LList [LNum 1; LNum 2]]).
Proof. vm_compute; reflexivity. Qed.
Example C14_example_ragged : get_lroots [Seq [Arr [4; 4]]; Arr [4; 4]] = Raise RuntimeError.
Proof. vm_compute; reflexivity. Qed.

(** C15.  Every index below the total number of states splits into a block and an offset that lies
    inside that block (so an empty block is never selected) and from which it is recovered. *)
Theorem C15_split_valid : forall sizes a, a < fold_right Nat.add 0 sizes ->
  exists b c, split_addr_by_blocks sizes (Z.of_nat a) = Ok (Z.of_nat b, Z.of_nat c) /\
    b < length sizes /\ c < nth b sizes 0 /\ a = before sizes b + c.
Proof. exact split_valid. Qed.
Print Assumptions C15_split_valid.

(** Conversely every offset inside a block is the decomposition of exactly one index. *)
Theorem C15_split_recompose : forall sizes b c, b < length sizes -> c < nth b sizes 0 ->
  split_addr_by_blocks sizes (Z.of_nat (before sizes b + c)) = Ok (Z.of_nat b, Z.of_nat c).
Proof. exact split_recompose. Qed.
Print Assumptions C15_split_recompose.

(** Negative indices are rejected; indices beyond the end are not: they are attributed to the last
    block with an offset outside of it. *)
Theorem C15_split_negative : forall sizes a, sizes <> [] -> (a < 0)%Z ->
  split_addr_by_blocks sizes a = Raise AssertionError.
Proof. exact split_negative. Qed.
Theorem C15_split_overflow : forall sizes a, sizes <> [] ->
  (Z.of_nat (fold_right Nat.add 0%nat sizes) <= a)%Z ->
  split_addr_by_blocks sizes a =
  Ok (Z.of_nat (length sizes) - 1, a - Z.of_nat (before sizes (length sizes - 1)%nat))%Z.
Proof. exact split_overflow. Qed.
Print Assumptions C15_split_overflow.

(** Raw addresses: when the blocks of the manifolds partition the rootspaces, the look-up tables are
    built and every raw state index is sent to the (block, column) at which the block's own index
    list holds that state. *)
Theorem C15_split_rblocks : forall nprods mblocks,
  NoDup (concat mblocks) -> (forall r, In r (concat mblocks) <-> r < length nprods) ->
  exists t, orth_lookup nprods mblocks = Ok t /\
  forall a, a < fold_right Nat.add 0 nprods ->
  exists b c mb, split_addr_by_rblocks nprods t (Z.of_nat a) = Ok (b, Z.of_nat c) /\
    nth_error mblocks b = Some mb /\ nth_error (prod_idx nprods mb) c = Some a.
Proof. exact split_rblocks_ok. Qed.
Print Assumptions C15_split_rblocks.

(** A rootspace that belongs to no block makes the constructor fail its assertion. *)
Theorem C15_lookup_missing : forall nprods mblocks r,
  NoDup (concat mblocks) -> Forall (fun r => r < length nprods) (concat mblocks) ->
  r < length nprods -> ~ In r (concat mblocks) ->
  orth_lookup nprods mblocks = Raise AssertionError.
Proof. exact orth_lookup_missing. Qed.
Print Assumptions C15_lookup_missing.

Example C15_example :
  map (fun a => split_addr_by_blocks [0; 2; 0; 0; 3; 0] a) [0; 1; 2; 4]%Z
  = [Ok (1, 0); Ok (1, 1); Ok (4, 0); Ok (4, 2)]%Z.
Proof. vm_compute; reflexivity. Qed.
(** five rootspaces in three blocks, listed out of order *)
Example C15_example_rblocks :
  match orth_lookup [2; 1; 0; 3; 1] [[3; 1]; [4]; [0; 2]] with
  | Ok t => map (split_addr_by_rblocks [2; 1; 0; 3; 1] t) [0; 2; 3; 5; 6]%Z
  | Raise e => [Raise e]
  end = [Ok (2, 0%Z); Ok (0, 3%Z); Ok (0, 0%Z); Ok (0, 2%Z); Ok (1, 0%Z)].
Proof. vm_compute; reflexivity. Qed.
