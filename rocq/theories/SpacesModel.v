(** Model of my_pyscf/lassi/spaces.py (class SingleLASRootspace and the module functions).

    Simplifications, valid for the whole file:
    - The five per-fragment numpy arrays nlas, nelelas, charges, spins, smults, which always have
      the same length nfrag, are zipped into one list of records.
    - Integers are unbounded.  Python's [//] on ints is floor division = [Z.div].
    - Fragment indices are natural numbers (no negative Python indices); an index out of range
      is an IndexError.
    - Weights, energies, loggers, point-group labels and the las back pointer are dropped.
    - CI vectors are abstract.
    - The number of CSFs comes from pyscf.csf_fci (external code); it is a parameter [csf],
      a function that returns the count or raises. *)
From Coq Require Import List ZArith Lia Bool.
From Verif Require Import Base.
Import ListNotations.
Local Open Scope Z_scope.

(** One fragment of a rootspace: spaces.py:28-32 *)
Record frag := mkfrag {
  f_norb : Z;    (* nlas *)
  f_nel0 : Z;    (* nelelas *)
  f_charge : Z;
  f_spin : Z;    (* 2*m *)
  f_smult : Z    (* 2*s+1 *)
}.

Definition frags := list frag.

(** A rootspace: fragments plus entanglement map (spaces.py:39, 369-372).  [entmap] is a tuple of
    tuples of fragment indices. *)
Record space := mkspace { sp_frags : frags; sp_entmap : list (list nat) }.

(** spaces.py:41-50 *)
Definition nelec (f : frag) : Z := f_nel0 f - f_charge f.
Definition neleca (f : frag) : Z := (nelec f + f_spin f) / 2.
Definition nelecb (f : frag) : Z := (nelec f - f_spin f) / 2.
Definition nholea (f : frag) : Z := f_norb f - neleca f.
Definition nholeb (f : frag) : Z := f_norb f - nelecb f.
(** spaces.py:55-62 *)
Definition nelecu (f : frag) : Z := (nelec f + (f_smult f - 1)) / 2.
Definition nelecd (f : frag) : Z := (nelec f - (f_smult f - 1)) / 2.
Definition nholeu (f : frag) : Z := f_norb f - nelecu f.
Definition nholed (f : frag) : Z := f_norb f - nelecd f.

(** np.all (a==b) for equal-length integer arrays *)
Fixpoint list_eqb (a b : list Z) : bool :=
  match a, b with
  | [], [] => true
  | x :: a', y :: b' => (x =? y) && list_eqb a' b'
  | _, _ => false
  end.

(** __eq__: spaces.py:64-68 *)
Definition space_eqb (s t : space) : bool :=
  if negb (Nat.eqb (length (sp_frags s)) (length (sp_frags t))) then false
  else list_eqb (map f_spin (sp_frags s)) (map f_spin (sp_frags t))
       && list_eqb (map f_smult (sp_frags s)) (map f_smult (sp_frags t))
       && list_eqb (map f_charge (sp_frags s)) (map f_charge (sp_frags t)).

(** The tuple passed to Python's [hash] by __hash__: spaces.py:70-72 *)
Definition hash_key (s : space) : list Z * list (list nat) :=
  (Z.of_nat (length (sp_frags s))
     :: map f_spin (sp_frags s) ++ map f_smult (sp_frags s) ++ map f_charge (sp_frags s),
   sp_entmap s).

(** changes made by get_single to fragments i and a: spaces.py:92-99 *)
Definition lose (dm ds : Z) (f : frag) : frag :=
  mkfrag (f_norb f) (f_nel0 f) (f_charge f + 1) (f_spin f - dm) (f_smult f + ds).
Definition gain (dm ds : Z) (f : frag) : frag :=
  mkfrag (f_norb f) (f_nel0 f) (f_charge f - 1) (f_spin f + dm) (f_smult f + ds).

Section Csf.
(** number of CSFs: norb, neleca, nelecb, smult *)
Variable csf : Z -> Z -> Z -> Z -> res Z.

(** get_single: spaces.py:88-124.  The new space has an empty entmap (constructor default). *)
Definition get_single (s : space) (i a : nat) (m si sa : Z) : res space :=
  let dm := 1 - 2 * m in
  let fs := upd a (gain dm sa) (upd i (lose dm si) (sp_frags s)) in
  match nth_error fs i, nth_error fs a with
  | Some fi, Some fa =>
      do i_ncsf <- csf (f_norb fi) (neleca fi) (nelecb fi) (f_smult fi) ;;
      do a_ncsf <- csf (f_norb fa) (neleca fa) (nelecb fa) (f_smult fa) ;;
      if (neleca fa =? f_norb fa) && (nelecb fa =? f_norb fa) && (f_smult fa >? 1)
      then Raise ImpossibleSpinError
      else if (neleca fi =? 0) && (nelecb fi =? 0) && (f_smult fi >? 1)
      then Raise ImpossibleSpinError
      else py_assert (0 <=? neleca fi)
          (py_assert (0 <=? nelecb fi)
          (py_assert (0 <=? neleca fa)
          (py_assert (0 <=? nelecb fa)
          (py_assert (negb (i_ncsf =? 0))
          (py_assert (negb (a_ncsf =? 0))
             (Ok (mkspace fs [])))))))
  | _, _ => Raise IndexError
  end.

(** get_valid_smult_change: spaces.py:168-179 *)
Definition get_valid_smult_change (f : frag) (dna dnb : Z) : list Z :=
  let na := neleca f + dna in
  let nb := nelecb f + dnb in
  let min_smult := Z.abs (na - nb) + 1 in
  let min_npair := Z.max 0 (na + nb - f_norb f) in
  let max_smult := 1 + na + nb - 2 * min_npair in
  (if f_smult f >? min_smult then [-1] else [])
  ++ (if f_smult f <? max_smult then [1] else []).

Definition default_frag : frag := mkfrag 0 0 0 0 1.

(** itertools.product *)
Definition product {A B} (l : list A) (l' : list B) : list (A * B) :=
  flat_map (fun x => map (fun y => (x, y)) l') l.

(** np.where (p) [0] *)
Definition where_ (p : frag -> bool) (fs : frags) : list nat :=
  filter (fun k => p (nth k fs default_frag)) (seq 0 (length fs)).

(** the body of one of the two loops of get_singles: try get_single, skip on ImpossibleSpinError,
    propagate everything else *)
Fixpoint collect_singles (s : space) (m : Z) (l : list (nat * nat * (Z * Z))) : res (list space) :=
  match l with
  | [] => Ok []
  | ((i, a), (si, sa)) :: l' =>
      match get_single s i a m si sa with
      | Ok t => do ts <- collect_singles s m l' ;; Ok (t :: ts)
      | Raise ImpossibleSpinError => collect_singles s m l'
      | Raise e => Raise e
      end
  end.

(** candidate (i, a, si, sa) of one spin, in loop order: spaces.py:188-194, 201-207 *)
Definition single_candidates (s : space) (mask : nat -> nat -> bool)
    (has_e has_h : frag -> bool) (dna dnb : Z) : list (nat * nat * (Z * Z)) :=
  let fs := sp_frags s in
  flat_map (fun ia : nat * nat =>
      let (i, a) := ia in
      if Nat.eqb i a then [] else
      if negb (mask i a) then [] else
      map (fun ss => (ia, ss))
        (product (get_valid_smult_change (nth i fs default_frag) (- dna) (- dnb))
                 (get_valid_smult_change (nth a fs default_frag) dna dnb)))
    (product (where_ has_e fs) (where_ has_h fs)).

(** get_singles: spaces.py:181-211 *)
Definition get_singles (s : space) (mask : nat -> nat -> bool) : res (list space) :=
  do la <- collect_singles s 0
     (single_candidates s mask (fun f => neleca f >? 0) (fun f => nholea f >? 0) 1 0) ;;
  do lb <- collect_singles s 1
     (single_candidates s mask (fun f => nelecb f >? 0) (fun f => nholeb f >? 0) 0 1) ;;
  Ok (la ++ lb).

(** excited_fragments: spaces.py:399-408, one fragment *)
Definition excited_frag (ignore_m : bool) (f g : frag) : bool :=
  let da := neleca f - neleca g in
  let db := nelecb f - nelecb g in
  let ds := f_smult f - f_smult g in
  if ignore_m then negb ((da + db =? 0) && (ds =? 0))
  else negb ((da =? 0) && (db =? 0) && (ds =? 0)).

Definition zipw {A B C} (f : A -> B -> C) (l : list A) (l' : list B) : list C :=
  map (fun p => f (fst p) (snd p)) (combine l l').

Definition excited_fragments (ignore_m : bool) (s t : frags) : list bool :=
  zipw (excited_frag ignore_m) s t.

Definition true_idx (l : list bool) : list nat :=
  filter (fun k => nth k l false) (seq 0 (length l)).

(** get_single_any_m: spaces.py:126-166 (CI part dropped) *)
Definition get_single_any_m (s : space) (i a : nat) (dsi dsa : Z) : res space :=
  let fs := sp_frags s in
  match nth_error fs i, nth_error fs a with
  | Some fi, Some fa =>
      let mi := f_spin fi in let ma := f_spin fa in
      let si := f_smult fi + dsi in let sa := f_smult fa + dsa in
      let i_a_pos := (neleca fi >? 0) && (Z.abs (mi - 1) <? si) in
      let i_b_pos := (nelecb fi >? 0) && (Z.abs (mi + 1) <? si) in
      let a_a_pos := (nholea fa >? 0) && (Z.abs (ma + 1) <? sa) in
      let a_b_pos := (nholeb fa >? 0) && (Z.abs (ma - 1) <? sa) in
      let others := filter (fun k => negb (Nat.eqb k i) && negb (Nat.eqb k a))
                           (seq 0 (length fs)) in
      let fr k := nth k fs default_frag in
      let max_up := sumZ (map (fun k => f_smult (fr k) - 1 - f_spin (fr k)) others) / 2 in
      let max_dn := sumZ (map (fun k => f_spin (fr k) + f_smult (fr k) - 1) others) / 2 in
      let via (keep : frag -> bool) (m1 m2 : Z) : res space :=
        match filter (fun k => keep (fr k)) others with
        | [] => Raise IndexError
        | p :: _ =>
            let dsp := if nholeu (fr p) >? 0 then 1 else -1 in
            do s1 <- get_single s i p m1 dsi dsp ;;
            get_single s1 p a m2 (- dsp) dsa
        end in
      do sp <-
        (if i_a_pos && a_a_pos then get_single s i a 0 dsi dsa
         else if i_b_pos && a_b_pos then get_single s i a 1 dsi dsa
         else if i_a_pos && a_b_pos && negb (max_up =? 0)
         then via (fun f => f_spin f <? f_smult f - 1) 0 1
         else if i_b_pos && a_a_pos && negb (max_dn =? 0)
         then via (fun f => f_spin f >? 1 - f_smult f) 1 0
         else Raise ImpossibleSpinError) ;;
      (* set_entmap_(self, ignore_m=True): spaces.py:369-372; the set is over a sorted index
         array, its iteration order is kept abstract by listing the indices in order *)
      Ok (mkspace (sp_frags sp) [true_idx (excited_fragments true (sp_frags sp) fs)])
  | _, _ => Raise IndexError
  end.
End Csf.

(** is_single_excitation_of: spaces.py:336-352 *)
Definition is_single_excitation_of (s t : frags) : bool :=
  if negb (sumZ (map nelec s) =? sumZ (map nelec t)) then false else
  if negb (sumZ (map f_spin s) =? sumZ (map f_spin t)) then false else
  let idx := true_idx (excited_fragments false s t) in
  if negb (Nat.eqb (length idx) 2) then false else
  let d (p : frag -> Z) := map (fun k => p (nth k s default_frag) - p (nth k t default_frag)) idx in
  if negb (list_eqb (sort_z (d nelec)) [-1; 1]) then false else
  if negb (list_eqb (sort_z (d f_spin)) [-1; 1]) then false else
  forallb (fun x => Z.abs x =? 1) (d f_smult).

(** first index satisfying a predicate: np.where(...)[0][0] *)
Definition first_idx (p : nat -> bool) (n : nat) : option nat :=
  match filter p (seq 0 n) with [] => None | k :: _ => Some k end.

Record description := mkdesc {
  d_src : nat; d_dest : nat; d_alpha : bool; d_src_up : bool; d_dest_up : bool; d_lroots : Z }.

(** describe_single_excitation: spaces.py:354-362.  Outer [res]: IndexError; inner [option]:
    Python None. *)
Definition describe_single_excitation (s t : frags) : res (option description) :=
  if negb (is_single_excitation_of s t) then Ok None else
  let n := length s in
  let fs k := nth k s default_frag in
  let ft k := nth k t default_frag in
  match first_idx (fun k => nelec (fs k) - nelec (ft k) =? -1) n,
        first_idx (fun k => nelec (fs k) - nelec (ft k) =? 1) n with
  | Some src, Some dest =>
      Ok (Some (mkdesc src dest
        (existsb (fun k => negb (neleca (fs k) =? neleca (ft k))) (seq 0 n))
        (f_smult (fs src) >? f_smult (ft src))
        (f_smult (fs dest) >? f_smult (ft dest))
        (Z.min (nelecu (ft src)) (nholed (ft dest)))))
  | _, _ => Raise IndexError
  end.

(** make_spin_shuffle_table: spaces.py:213-225 *)
Definition sub2 (k : nat) (row : list Z) : list Z := upd k (fun x => x - 2) row.

Definition flip_rows (cols : list nat) (table : list (list Z)) : list (list Z) :=
  np_unique (flat_map (fun row => map (fun k => sub2 k row) cols) table).

(** np.all (row > -smults) *)
Definition row_valid (smults row : list Z) : bool :=
  forallb (fun p => fst p >? - snd p) (combine row smults).

Fixpoint spin_rounds (n : nat) (smults : list Z) (table : list (list Z)) : list (list Z) :=
  match n with
  | O => table
  | S n' => spin_rounds n' smults
              (filter (row_valid smults) (flip_rows (seq 0 (length smults)) table))
  end.

Definition make_spin_shuffle_table (smults spins : list Z) : res (list (list Z)) :=
  let s2 := map (fun s => s - 1) smults in
  let d := sumZ s2 - sumZ spins in
  py_assert (d mod 2 =? 0)
    (Ok (spin_rounds (Z.to_nat (d / 2)) smults [s2])).

(** np.cumsum *)
Fixpoint cumsum_from (acc : Z) (l : list Z) : list Z :=
  match l with [] => [] | x :: l' => (acc + x) :: cumsum_from (acc + x) l' end.
Definition cumsum (l : list Z) : list Z := cumsum_from 0 l.

(** make_smult_shuffle_table: spaces.py:227-258.  The loop; the per-round assertion
    (spaces.py:250) is a value. *)
Fixpoint smult_rounds (n : nat) (smults : list Z) (tgt : Z) (table : list (list Z))
  : res (list (list Z)) :=
  match n with
  | O => Ok table
  | S n' =>
      let t1 := flip_rows (seq 1 (length smults - 1)) table in
      let t2 := filter (fun row => forallb (fun x => x >=? 0) (cumsum row)
                                   && row_valid smults row) t1 in
      py_assert (forallb (fun row => last (cumsum row) 0 >=? tgt) t2)
        (smult_rounds n' smults tgt t2)
  end.

(** spaces.py:253-257: for every i, gencoup[i+1] >= (smults[i+1]-1) - gencoup[i] *)
Definition tri_ok (smults row : list Z) : bool :=
  let g := cumsum row in
  forallb (fun i => nth (S i) g 0 >=? (nth (S i) smults 0 - 1) - nth i g 0)
          (seq 0 (length smults - 1)).

Definition make_smult_shuffle_table (smults : list Z) (smult_lsf : Z) : res (list (list Z)) :=
  let s2 := map (fun s => s - 1) smults in
  let tgt := smult_lsf - 1 in
  let d := sumZ s2 - tgt in
  py_assert (d mod 2 =? 0)
    match smults with
    | [] => Raise IndexError                 (* s2[0] *)
    | _ =>
        let smult_max := sumZ s2 + 1 in
        let smult_min := 2 * (max_list s2 + 1) - smult_max in
        if (smult_lsf <? smult_min) || (smult_lsf >? smult_max) then Ok []
        else
          do t <- smult_rounds (Z.to_nat (d / 2)) smults tgt [s2] ;;
          py_assert (forallb (fun row => last (cumsum row) 0 =? tgt) t)
            (Ok (filter (tri_ok smults) t))
    end.

(** gen_spin_shuffles: spaces.py:260-267 *)
Definition set_spins (fs : frags) (spins : list Z) : frags :=
  zipw (fun f m => mkfrag (f_norb f) (f_nel0 f) (f_charge f) m (f_smult f)) fs spins.

Definition gen_spin_shuffles (s : space) : res (list space) :=
  do t <- make_spin_shuffle_table (map f_smult (sp_frags s)) (map f_spin (sp_frags s)) ;;
  Ok (map (fun spins => mkspace (set_spins (sp_frags s) spins) (sp_entmap s)) t).

(** is_spin_shuffle_of: spaces.py:389-392 *)
Definition is_spin_shuffle_of (s t : frags) : bool :=
  list_eqb (map nelec s) (map nelec t)
  && list_eqb (map f_smult s) (map f_smult t)
  && (sumZ (map f_spin s) =? sumZ (map f_spin t)).

Section Hash.
(** Python's hash on the key tuple: an arbitrary function. *)
Variable hash : list Z * list (list nat) -> Z.

(** membership in a Python set: same hash and __eq__ *)
Definition in_set (x : space) (l : list space) : bool :=
  existsb (fun y => (hash (hash_key x) =? hash (hash_key y)) && space_eqb x y) l.

(** loop shared by all_single_excitations (spaces.py:624) and _spin_shuffle (spaces.py:751-756):
    append the unseen ones *)
Fixpoint append_unseen (seen : list space) (new : list space) : list space :=
  match new with
  | [] => []
  | x :: new' => if in_set x seen then append_unseen seen new'
                 else x :: append_unseen (x :: seen) new'
  end.

(** _spin_shuffle: spaces.py:739-767 (weights dropped) *)
Definition spin_shuffle (refs : list space) : res (list space) :=
  do new <- mapM gen_spin_shuffles refs ;;
  Ok (refs ++ append_unseen refs (concat new)).

(** all_single_excitations, from the list of reference spaces, filter_shuffles=False:
    spaces.py:618-624 *)
Definition all_single_excitations csf (mask : nat -> nat -> bool) (refs : list space)
  : res (list space) :=
  do new <- mapM (fun s => get_singles csf s mask) refs ;;
  Ok (refs ++ append_unseen refs (concat new)).

(** count_excitations: spaces.py:826-841 on the list of spaces; [fuel] = 500.
    Returns the final number of spaces and the loop counter. *)
Fixpoint count_loop csf (fuel : nat) (ncalls : nat) (n0 : nat) (l1 : list space)
  : res (nat * nat * list space) :=
  match fuel with
  | O => if Nat.ltb n0 (length l1) then Raise RuntimeError
         else Ok (n0, pred ncalls, l1)
  | S fuel' =>
      if Nat.eqb (length l1) n0 then Ok (n0, ncalls, l1)
      else do l2 <- all_single_excitations csf (fun _ _ => true) l1 ;;
           count_loop csf fuel' (S ncalls) (length l1) l2
  end.

Definition count_excitations csf (l0 : list space) : res (nat * nat * list space) :=
  do l1 <- all_single_excitations csf (fun _ _ => true) l0 ;;
  count_loop csf 500 0 (length l0) l1.
End Hash.

(** combine_orthogonal_excitations, flexible_m branch, on the merged arrays: spaces.py:575-589.
    First index with cumsum >= delta; entries before it are used in full. *)
Fixpoint greedy_fill (delta : Z) (caps : list Z) : option (list Z) :=
  (* dspins[:i] kept, dspins[i] := rest, dspins[i+1:] := 0 ; None = IndexError *)
  match caps with
  | [] => None
  | c :: caps' =>
      if c >=? delta then Some (delta :: map (fun _ => 0) caps')
      else match greedy_fill (delta - c) caps' with
           | None => None
           | Some l => Some (c :: l)
           end
  end.

Definition repair_spins (smults spins : list Z) (target : Z) : res (list Z) :=
  let delta := sumZ spins - target in
  do spins1 <-
    (if delta =? 0 then Ok spins
     else
       let sgn := if delta >? 0 then -1 else 1 in
       let caps := zipw (fun S m => (S - 1) - sgn * m) smults spins in
       py_assert (forallb (fun c => c >=? 0) caps)
         match greedy_fill (Z.abs delta) caps with
         | None => Raise IndexError
         | Some d => Ok (zipw (fun m x => m + sgn * x) spins d)
         end) ;;
  py_assert (sumZ spins1 =? target)
    (py_assert (forallb (fun b => b) (zipw (fun m S => m <? S) spins1 smults))
      (py_assert (forallb (fun b => b) (zipw (fun m S => - m <? S) spins1 smults))
         (Ok spins1))).

(** a rootspace together with whether it has CI vectors (has_ci) *)
Fixpoint zip3 {A B C D} (f : A -> B -> C -> D) (l : list A) (l' : list B) (l'' : list C) : list D :=
  match l, l', l'' with
  | x :: l, y :: l', z :: l'' => f x y z :: zip3 f l l' l''
  | _, _, _ => []
  end.

(** spaces.py:566-573 *)
Definition merge_frags (ignore_m : bool) (e1 e2 ref : frags) : frags :=
  zip3 (fun f1 f2 r =>
          let g := if excited_frag ignore_m f2 r then f2 else f1 in
          mkfrag (f_norb r) (f_nel0 r) (f_charge g) (f_spin g) (f_smult g))
       e1 e2 ref.

Fixpoint eqb_nats (a b : list nat) : bool :=
  match a, b with
  | [], [] => true
  | x :: a', y :: b' => Nat.eqb x y && eqb_nats a' b'
  | _, _ => false
  end.
Fixpoint nodup_ent (l : list (list nat)) : bool :=
  match l with
  | [] => true
  | x :: l' => negb (existsb (eqb_nats x) l') && nodup_ent l'
  end.

(** combine_orthogonal_excitations: spaces.py:565-603.  [ci] flags say whether the argument has CI
    vectors.  The entmap is kept as the (unsorted) concatenation. *)
Definition combine_orthogonal_excitations (e1 e2 ref : space) (ci1 ci2 : bool) (flexible_m : bool)
  : res space :=
  let fs := merge_frags flexible_m (sp_frags e1) (sp_frags e2) (sp_frags ref) in
  let ent := sp_entmap e1 ++ sp_entmap e2 in
  if flexible_m then
    do spins <- repair_spins (map f_smult fs) (map f_spin fs) (sumZ (map f_spin (sp_frags ref))) ;;
    py_assert (nodup_ent ent) (Ok (mkspace (set_spins fs spins) ent))
  else
    py_assert (nodup_ent ent)
      (* product.ci[ifrag] on ci=None: TypeError *)
      (if (ci1 && ci2) || Nat.eqb (length (sp_frags ref)) 0
       then Ok (mkspace fs ent) else Raise TypeError).

(** orthogonal_excitations: spaces.py:555-563 *)
Definition orthogonal_excitations (e1 e2 ref : frags) (ignore_m : bool) : bool :=
  if negb (Nat.eqb (length e1) (length ref)) then false else
  if negb (Nat.eqb (length e2) (length ref)) then false else
  let i1 := excited_fragments ignore_m e1 ref in
  if negb (existsb (fun b => b) i1) then false else
  let i2 := excited_fragments ignore_m e2 ref in
  if negb (existsb (fun b => b) i2) then false else
  negb (existsb (fun b => b) (zipw andb i1 i2)).

(** filter_spaces, the keep/drop decision for one rootspace: spaces.py:876-891.
    Limits are scalars or None. *)
Definition filter_keep (max_charge min_charge max_smult min_smult : option Z)
    (target_any target_all : option (list Z)) (charges smults : list Z) : bool :=
  let lim o (p : Z -> Z -> bool) l :=
    match o with None => true | Some b => forallb (fun x => p x b) l end in
  let s2 := map (fun s => s - 1) smults in
  let max_s2 := sumZ s2 in
  let min_s2 := 2 * max_list s2 - max_s2 in
  lim max_charge Z.leb charges && lim min_charge Z.geb charges
  && lim max_smult Z.leb smults && lim min_smult Z.geb smults
  && match target_any with
     | None => true
     | Some l => existsb (fun t => t - 1 >=? min_s2) l && existsb (fun t => t - 1 <=? max_s2) l
     end
  && match target_all with
     | None => true
     | Some l => forallb (fun t => t - 1 >=? min_s2) l && forallb (fun t => t - 1 <=? max_s2) l
     end.

(** is_orthogonal_by_smult: spaces.py:456-465 *)
Definition is_orthogonal_by_smult (sm1 sm2 : list Z) : bool :=
  let a := map (fun s => s - 1) sm1 in
  let b := map (fun s => s - 1) sm2 in
  let max1 := sumZ a in let min1 := 2 * max_list a - max1 in
  let max2 := sumZ b in let min2 := 2 * max_list b - max2 in
  (max1 <? min2) || (max2 <? min1).

(** Python range (start, stop, step) for step = -2 / +2 *)
Fixpoint range_down2 (fuel : nat) (start stop : Z) : list Z :=
  match fuel with
  | O => []
  | S f => if start >? stop then start :: range_down2 f (start - 2) stop else []
  end.
Fixpoint range_up2 (fuel : nat) (start stop : Z) : list Z :=
  match fuel with
  | O => []
  | S f => if start <? stop then start :: range_up2 f (start + 2) stop else []
  end.
Definition py_range_down2 (start stop : Z) : list Z :=
  range_down2 (Z.to_nat (start - stop)) start stop.
Definition py_range_up2 (start stop : Z) : list Z :=
  range_up2 (Z.to_nat (stop - start)) start stop.

Section Szrot.
Variable V : Type.   (* CI vectors *)
(** contract_sdown / norm_sdown and contract_sup / norm_sup for given (neleca, nelecb) *)
Variable sdown sup : Z -> Z -> V -> V.

(** the two loops of get_ci_szrot: spaces.py:296-302, 305-311; result in loop order *)
Fixpoint down_loop (szs : list Z) (na nb : Z) (c : V) : list (Z * V) :=
  match szs with
  | [] => []
  | sz1 :: l => let c1 := sdown na nb c in (sz1, c1) :: down_loop l (na - 1) (nb + 1) c1
  end.
Fixpoint up_loop (szs : list Z) (na nb : Z) (c : V) : list (Z * V) :=
  match szs with
  | [] => []
  | sz1 :: l => let c1 := sup na nb c in (sz1, c1) :: up_loop l (na + 1) (nb - 1) c1
  end.

(** get_ci_szrot for one fragment: spaces.py:288-312; a dict as association list *)
Definition get_ci_szrot (f : frag) (c : V) : list (Z * V) :=
  (f_spin f, c)
  :: down_loop (py_range_down2 (f_spin f - 2) (- (1 + f_smult f))) (neleca f) (nelecb f) c
  ++ up_loop (py_range_up2 (f_spin f + 2) (1 + f_smult f)) (neleca f) (nelecb f) c.
End Szrot.

(** get_fcisolver: spaces.py:470-478: electron numbers and spin of the solver *)
Definition get_fcisolver (f : frag) (dspin : Z) : res (Z * Z * Z) :=
  py_assert (dspin mod 2 =? 0)
    (Ok (neleca f + dspin / 2, nelecb f - dspin / 2, f_spin f + dspin)).

(** get_fcisolvers_szrot for one fragment: spaces.py:317-329 *)
Definition enum_from {A} (k : Z) (l : list A) : list (Z * A) :=
  combine (map (fun j => k + Z.of_nat j) (seq 0 (length l))) l.
Definition get_fcisolvers_szrot (f : frag) : list (Z * res (Z * Z * Z)) :=
  (f_spin f, get_fcisolver f 0)
  :: map (fun p => (snd p, get_fcisolver f (-2 * (fst p + 1))))
       (enum_from 0 (py_range_down2 (f_spin f - 2) (- (1 + f_smult f))))
  ++ map (fun p => (snd p, get_fcisolver f (2 * (fst p + 1))))
       (enum_from 0 (py_range_up2 (f_spin f + 2) (1 + f_smult f))).

Fixpoint lookup {V} (k : Z) (d : list (Z * V)) : option V :=
  match d with
  | [] => None
  | (k', v) :: d' => if k =? k' then Some v else lookup k d'
  end.
