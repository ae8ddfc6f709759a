(** Specification of rootspace enumeration, written without the model's functions.  Only the data
    type [frag] (raw quantum numbers) is shared with the model. *)
From Coq Require Import List ZArith Lia Bool.
From Verif Require Import Base SpacesModel.
Import ListNotations.
Local Open Scope Z_scope.

(** [occ f na nb]: fragment [f] has [na] spin-up and [nb] spin-down electrons. *)
Definition occ (f : frag) (na nb : Z) : Prop :=
  na + nb = f_nel0 f - f_charge f /\ na - nb = f_spin f.

(** A physically possible local state: occupations within the orbitals; the multiplicity is at
    least the one forced by the projection and at most the number of electrons (or holes) allows. *)
Definition physical (norb na nb smult : Z) : Prop :=
  0 <= na <= norb /\ 0 <= nb <= norb /\
  Z.abs (na - nb) <= smult - 1 /\
  smult - 1 <= na + nb /\ smult - 1 <= 2 * norb - (na + nb) /\
  Z.even (smult - 1 - (na - nb)) = true.

Definition valid_frag (f : frag) : Prop :=
  exists na nb, occ f na nb /\ physical (f_norb f) na nb (f_smult f).

(** [f'] is [f] with [dn] more electrons, [dm] more 2*Sz and [ds] more multiplicity *)
Definition changed (dn dm ds : Z) (f f' : frag) : Prop :=
  f_norb f' = f_norb f /\ f_nel0 f' = f_nel0 f /\
  f_nel0 f' - f_charge f' = f_nel0 f - f_charge f + dn /\
  f_spin f' = f_spin f + dm /\ f_smult f' = f_smult f + ds.

(** One electron of spin [dm] (+1 up, -1 down) moves from fragment [i] to fragment [a]. *)
Definition hop (dm : Z) (i a : nat) (si sa : Z) (s t : frags) : Prop :=
  i <> a /\ length t = length s /\
  (forall k, k <> i -> k <> a -> nth_error t k = nth_error s k) /\
  (exists f f', nth_error s i = Some f /\ nth_error t i = Some f' /\ changed (-1) (- dm) si f f') /\
  (exists f f', nth_error s a = Some f /\ nth_error t a = Some f' /\ changed 1 dm sa f f').

Definition total_elec (s : frags) : Z := sumZ (map (fun f => f_nel0 f - f_charge f) s).
Definition total_spin (s : frags) : Z := sumZ (map f_spin s).

(** Local spin projections [t] compatible with multiplicities [smults] and total projection [M]. *)
Definition microstate (smults : list Z) (M : Z) (t : list Z) : Prop :=
  Forall2 (fun S m => - (S - 1) <= m <= S - 1 /\ Z.even (S - 1 - m) = true) smults t
  /\ sumZ t = M.

(** Triangle rule for (doubled) angular momenta. *)
Definition triangle (a b c : Z) : Prop := Z.abs (a - b) <= c <= a + b /\ Z.even (a + b - c) = true.

(** Genealogical coupling: starting from total [acc], couple the local spins [s2] one after the
    other, changing the total by [inc]; end at [final]. *)
Fixpoint coupling (acc : Z) (s2 inc : list Z) (final : Z) : Prop :=
  match s2, inc with
  | [], [] => acc = final
  | s :: s2', d :: inc' => triangle acc s (acc + d) /\ coupling (acc + d) s2' inc' final
  | _, _ => False
  end.

(** The local spins [s2] can couple to total spin [S2] (all doubled). *)
Definition can_couple (s2 : list Z) (S2 : Z) : Prop := exists inc, coupling 0 s2 inc S2.

(** [s] and [t] are the same rootspace up to local spin projections, with equal total projection
    (and each is over the same orbitals). *)
Definition shuffle_rel (s t : frags) : Prop :=
  Forall2 (fun f g => f_norb f = f_norb g /\ f_nel0 f = f_nel0 g /\ f_charge f = f_charge g
                      /\ f_smult f = f_smult g) s t
  /\ total_spin s = total_spin t.

Definition spin_ok (f : frag) : Prop :=
  - (f_smult f - 1) <= f_spin f <= f_smult f - 1 /\ Z.even (f_smult f - 1 - f_spin f) = true.

(** An external CSF counter that is right about physical states. *)
Definition csf_sound (csf : Z -> Z -> Z -> Z -> res Z) : Prop :=
  forall norb na nb smult, physical norb na nb smult -> exists n, csf norb na nb smult = Ok n /\ n <> 0.

(** A fragment of an excitation differs from the reference in charge or multiplicity. *)
Definition touched (f r : frag) : Prop := f_charge f <> f_charge r \/ f_smult f <> f_smult r.

(** Two excitations of one reference touch no fragment in common. *)
Definition disjoint_exc (e1 e2 ref : frags) : Prop :=
  forall k f1 f2 r, nth_error e1 k = Some f1 -> nth_error e2 k = Some f2 ->
    nth_error ref k = Some r -> ~ (touched f1 r /\ touched f2 r).
