(** Property theorems for rootspace enumeration (my_pyscf/lassi/spaces.py): C01-C10, C48, C49.
    Statements use [SpacesSpec]; the functions under test are those of [SpacesModel]. *)
From Coq Require Import List ZArith Lia Bool Sorting.Sorted.
From Verif Require Import Base BaseFacts SpacesModel SpacesSpec SpacesTables SpacesCoupling
  SpacesHop SpacesEnum SpacesClosure SpacesMisc SpacesMore.
Import ListNotations.
Local Open Scope Z_scope.

(** Concrete data used by the examples: three fragments; an external CSF counter. *)
Definition csf1 (norb na nb smult : Z) : res Z := Ok 1.
Definition fr (norb nel c m s : Z) : frag := mkfrag norb nel c m s.
Definition ex_s : space := mkspace [fr 2 2 0 0 1; fr 4 4 0 2 3; fr 3 3 0 (-1) 2] [].
Lemma csf1_sound : csf_sound csf1.
Proof. intros norb na nb sm _. exists 1. split; [reflexivity|lia]. Qed.
Lemma ex_valid : Forall valid_frag (sp_frags ex_s).
Proof.
  unfold ex_s, fr; cbn [sp_frags]. repeat constructor; unfold valid_frag, occ, physical;
    cbn [f_norb f_nel0 f_charge f_spin f_smult].
  - exists 1, 1. repeat split; auto; lia.
  - exists 3, 1. repeat split; auto; lia.
  - exists 1, 2. repeat split; auto; lia.
Qed.

(** ** C01 *)
Theorem C01_hop_conserves csf s i a m si sa t :
  i <> a -> m = 0 \/ m = 1 ->
  get_single csf s i a m si sa = Ok t ->
  hop (1 - 2 * m) i a si sa (sp_frags s) (sp_frags t) /\
  total_elec (sp_frags t) = total_elec (sp_frags s) /\
  total_spin (sp_frags t) = total_spin (sp_frags s) /\
  (forall k f na nb, (k = i \/ k = a) -> nth_error (sp_frags t) k = Some f -> occ f na nb ->
     0 <= na /\ 0 <= nb).
Proof. exact (get_single_hop_occ csf s i a m si sa t). Qed.
Print Assumptions C01_hop_conserves.
Example C01_case : exists t, get_single csf1 ex_s 0 1 0 1 (-1) = Ok t /\
  map f_spin (sp_frags t) = [-1; 3; -1] /\ map f_charge (sp_frags t) = [1; -1; 0].
Proof. eexists. vm_compute. split; [reflexivity|split; reflexivity]. Qed.

(** ** C02 *)
Theorem C02_single_excitation_iff s t :
  same_orbs s t -> Forall parity_ok s -> Forall parity_ok t ->
  (is_single_excitation_of s t = true <->
   exists dm i a si sa, (dm = 1 \/ dm = -1) /\ (si = 1 \/ si = -1) /\ (sa = 1 \/ sa = -1)
     /\ hop dm i a si sa t s).
Proof. exact (is_single_iff s t). Qed.
Print Assumptions C02_single_excitation_iff.

Theorem C02_describe_correct s t :
  same_orbs s t -> Forall parity_ok s -> Forall parity_ok t ->
  is_single_excitation_of s t = true ->
  exists d, describe_single_excitation s t = Ok (Some d) /\
    hop (if d_alpha d then 1 else -1) (d_src d) (d_dest d)
        (if d_src_up d then 1 else -1) (if d_dest_up d then 1 else -1) t s.
Proof. exact (describe_single_correct s t). Qed.
Print Assumptions C02_describe_correct.

Theorem C02_describe_rebuilds csf s t d :
  csf_sound csf -> same_orbs s t -> Forall valid_frag s -> Forall parity_ok t ->
  describe_single_excitation s t = Ok (Some d) ->
  forall ent,
  get_single csf (mkspace t ent) (d_src d) (d_dest d) (if d_alpha d then 0 else 1)
     (if d_src_up d then 1 else -1) (if d_dest_up d then 1 else -1) = Ok (mkspace s []).
Proof. exact (describe_rebuild csf s t d). Qed.
Print Assumptions C02_describe_rebuilds.
Example C02_case :
  let s := [fr 2 2 1 (-1) 2; fr 4 4 (-1) 3 4; fr 3 3 0 (-1) 2] in
  same_orbs s (sp_frags ex_s) /\ is_single_excitation_of s (sp_frags ex_s) = true /\
  is_single_excitation_of [fr 2 2 1 1 2; fr 4 4 (-1) 3 4; fr 3 3 0 (-1) 2] (sp_frags ex_s) = false.
Proof. vm_compute. repeat split; repeat constructor. Qed.

(** ** C03 *)
Theorem C03_get_singles_exact csf s mask :
  csf_sound csf -> Forall valid_frag (sp_frags s) ->
  exists l, get_singles csf s mask = Ok l /\
  forall t, In t l <->
    sp_entmap t = [] /\ Forall valid_frag (sp_frags t) /\
    exists dm i a si sa, (dm = 1 \/ dm = -1) /\ mask i a = true /\
      (si = 1 \/ si = -1) /\ (sa = 1 \/ sa = -1) /\
      hop dm i a si sa (sp_frags s) (sp_frags t).
Proof. exact (get_singles_exact csf s mask). Qed.
Print Assumptions C03_get_singles_exact.

Theorem C03_all_single_exact hash O csf (HC : csf_sound csf) mask refs :
  Forall (good O) refs ->
  exists l, all_single_excitations hash csf mask refs = Ok l /\
    (exists new, l = refs ++ new) /\
    (NoDup refs -> NoDup l) /\
    Forall (good O) l /\
    (length l = length refs -> l = refs) /\
    (forall t, In t l <-> In t refs \/ exists s, In s refs /\ hop1 mask s t).
Proof. exact (all_single_exact hash O csf HC mask refs). Qed.
Print Assumptions C03_all_single_exact.
Example C03_case : Forall (good [(2,2);(4,4);(3,3)]) [ex_s] /\
  exists l, get_singles csf1 ex_s (fun _ _ => true) = Ok l /\ length l = 22%nat.
Proof.
  split.
  - constructor; [|constructor]. split; [split; reflexivity|exact ex_valid].
  - eexists. split; [vm_compute; reflexivity|reflexivity].
Qed.

(** ** C04 *)
Theorem C04_spin_table_exact smults spins :
  Forall (fun S => 1 <= S) smults ->
  sumZ spins <= sumZ (s2of smults) ->
  Z.even (sumZ (s2of smults) - sumZ spins) = true ->
  exists table, make_spin_shuffle_table smults spins = Ok table /\
    StronglySorted lexlt table /\
    (forall t, In t table <-> microstate smults (sumZ spins) t).
Proof. exact (spin_table_exact smults spins). Qed.
Print Assumptions C04_spin_table_exact.
Example C04_case : make_spin_shuffle_table [2; 3; 2] [1; 0; -1] = Ok
  [[-1; 0; 1]; [-1; 2; -1]; [1; -2; 1]; [1; 0; -1]].
Proof. vm_compute. reflexivity. Qed.

(** ** C05 *)
Theorem C05_smult_table_exact smults (Hpos : Forall (fun S => 1 <= S) smults) (Hne : smults <> [])
    smult_lsf :
  Z.even (sumZ (s2of smults) - (smult_lsf - 1)) = true ->
  exists table, make_smult_shuffle_table smults smult_lsf = Ok table /\
    StronglySorted lexlt table /\
    (forall t, In t table <-> coupling 0 (s2of smults) t (smult_lsf - 1)).
Proof. exact (smult_table_exact smults Hpos Hne smult_lsf). Qed.
Print Assumptions C05_smult_table_exact.
(** when no coupling reaches the target the table is empty; this gives the reachable targets *)
Theorem C05_reachable_targets s2 S :
  Forall (fun x => 0 <= x) s2 ->
  (can_couple s2 S <->
   0 <= S /\ Z.even (sumZ s2 - S) = true /\ 2 * max_list s2 - sumZ s2 <= S <= sumZ s2).
Proof. exact (polygon_rule s2 S). Qed.
Print Assumptions C05_reachable_targets.
Example C05_case : make_smult_shuffle_table [2; 3; 2] 3 = Ok
  [[1; 0; 1]; [1; 2; -1]] /\ make_smult_shuffle_table [2; 3; 2] 7 = Ok [].
Proof. vm_compute. split; reflexivity. Qed.

(** ** C06 *)
Theorem C06_gen_spin_shuffles_exact s :
  Forall spin_ok (sp_frags s) ->
  exists l, gen_spin_shuffles s = Ok l /\ NoDup l /\ (forall t, In t l <-> shuffled s t).
Proof. exact (gen_spin_shuffles_exact s). Qed.
Print Assumptions C06_gen_spin_shuffles_exact.
Theorem C06_spin_shuffle_closes hash O refs :
  Forall (sgood O) refs ->
  exists l, spin_shuffle hash refs = Ok l /\
    (exists new, l = refs ++ new) /\
    (NoDup refs -> NoDup l) /\
    (forall t, In t l <-> exists s, In s refs /\ shuffled s t) /\
    spin_shuffle hash l = Ok l.
Proof. exact (spin_shuffle_exact hash O refs). Qed.
Print Assumptions C06_spin_shuffle_closes.
Example C06_case : Forall spin_ok (sp_frags ex_s) /\
  exists l, spin_shuffle (fun _ => 0) [ex_s] = Ok l /\ length l = 2%nat.
Proof.
  split.
  - repeat constructor; vm_compute; auto; discriminate.
  - eexists. split; [vm_compute; reflexivity|reflexivity].
Qed.

(** ** C07: holds for rootspaces with the same entanglement map; false in general *)
Theorem C07_eq_hash_partial s t :
  sp_entmap s = sp_entmap t -> space_eqb s t = true -> hash_key s = hash_key t.
Proof. exact (eq_hash_same_entmap s t). Qed.
Print Assumptions C07_eq_hash_partial.
(** Two public constructors give spaces that compare equal and hash different tuples. *)
Theorem C07_eq_hash_refuted : exists csf ref i a s t,
  csf_sound csf /\ Forall valid_frag (sp_frags ref) /\
  get_single csf ref i a 0 1 1 = Ok s /\ get_single_any_m csf ref i a 1 1 = Ok t /\
  space_eqb s t = true /\ hash_key s <> hash_key t.
Proof.
  exists csf1, (mkspace [fr 2 2 0 0 1; fr 2 2 0 0 1] []), 0%nat, 1%nat. eexists _, _.
  split; [exact csf1_sound|]. split.
  - repeat constructor; exists 1, 1; vm_compute; repeat split; discriminate.
  - split; [vm_compute; reflexivity|]. split; [vm_compute; reflexivity|].
    split; [vm_compute; reflexivity|]. vm_compute. discriminate.
Qed.
Print Assumptions C07_eq_hash_refuted.
Example C07_case : space_eqb ex_s ex_s = true.
Proof. reflexivity. Qed.

(** ** C08 *)
Theorem C08_filter_limits mxc mnc mxs mns charges smults :
  filter_keep mxc mnc mxs mns None None charges smults = true <->
  lim_ok mxc mnc charges /\ lim_ok mxs mns smults.
Proof. exact (filter_limits mxc mnc mxs mns charges smults). Qed.
Print Assumptions C08_filter_limits.
(** exact for targets of the right parity *)
Theorem C08_filter_target_all_partial smults charges l :
  Forall (fun S => 1 <= S) smults ->
  (forall t, In t l -> 1 <= t /\ Z.even (sumZ (s2of smults) - (t - 1)) = true) ->
  (filter_keep None None None None None (Some l) charges smults = true <->
   forall t, In t l -> can_couple (s2of smults) (t - 1)).
Proof. exact (filter_target_all smults charges l). Qed.
Print Assumptions C08_filter_target_all_partial.
(** never drops a space that should stay *)
Theorem C08_filter_target_any_partial smults charges l :
  Forall (fun S => 1 <= S) smults ->
  (exists t, In t l /\ can_couple (s2of smults) (t - 1)) ->
  filter_keep None None None None (Some l) None charges smults = true.
Proof. exact (filter_target_any_keeps smults charges l). Qed.
Print Assumptions C08_filter_target_any_partial.
Theorem C08_filter_target_any_single_partial smults charges t :
  Forall (fun S => 1 <= S) smults -> 1 <= t -> Z.even (sumZ (s2of smults) - (t - 1)) = true ->
  (filter_keep None None None None (Some [t]) None charges smults = true <->
   can_couple (s2of smults) (t - 1)).
Proof. exact (filter_target_any_single smults charges t). Qed.
Print Assumptions C08_filter_target_any_single_partial.
(** target_any_smult = [1, 9] keeps two fragments of multiplicities 2 and 4, which couple to
    triplets and quintets only *)
Theorem C08_filter_target_any_refuted : exists smults l,
  Forall (fun S => 1 <= S) smults /\ Forall (fun t => 1 <= t) l /\
  filter_keep None None None None (Some l) None (map (fun _ => 0) smults) smults = true /\
  ~ exists t, In t l /\ can_couple (s2of smults) (t - 1).
Proof.
  exists [2; 4], [1; 9]. split; [repeat constructor; lia|]. split; [repeat constructor; lia|].
  split; [vm_compute; reflexivity|].
  intros (t & [<-|[<-|[]]] & HC); apply polygon_rule in HC;
    try (repeat constructor; vm_compute; discriminate);
    destruct HC as (_ & HE & H1 & H2); vm_compute in H1, H2; congruence.
Qed.
Print Assumptions C08_filter_target_any_refuted.
(** target_all_smult = [2] keeps two doublets, which couple to singlet and triplet only *)
Theorem C08_filter_target_all_refuted : exists smults l,
  Forall (fun S => 1 <= S) smults /\ Forall (fun t => 1 <= t) l /\
  filter_keep None None None None None (Some l) (map (fun _ => 0) smults) smults = true /\
  ~ (forall t, In t l -> can_couple (s2of smults) (t - 1)).
Proof.
  exists [2; 2], [2]. split; [repeat constructor; lia|]. split; [repeat constructor; lia|].
  split; [vm_compute; reflexivity|].
  intros H. specialize (H 2 (or_introl eq_refl)). apply polygon_rule in H.
  - destruct H as (_ & HE & _). vm_compute in HE. discriminate.
  - repeat constructor; vm_compute; discriminate.
Qed.
Print Assumptions C08_filter_target_all_refuted.

(** ** C09 *)
Theorem C09_combine_flexible e1 e2 ref c1 c2 :
  Forall2 shape (sp_frags ref) (sp_frags e1) -> Forall2 shape (sp_frags ref) (sp_frags e2) ->
  Forall spin_ok (sp_frags e1) -> Forall spin_ok (sp_frags e2) ->
  Forall parity_ok (sp_frags e1) -> Forall parity_ok (sp_frags e2) -> Forall parity_ok (sp_frags ref) ->
  Forall spin_ok (sp_frags ref) ->
  disjoint_exc (sp_frags e1) (sp_frags e2) (sp_frags ref) ->
  NoDup (sp_entmap e1 ++ sp_entmap e2) ->
  let sm := zip3 (fun f1 f2 r => f_smult f1 + f_smult f2 - f_smult r)
              (sp_frags e1) (sp_frags e2) (sp_frags ref) in
  ((exists p, combine_orthogonal_excitations e1 e2 ref c1 c2 true = Ok p) <->
   (exists t, Forall2 local_ok sm t /\ sumZ t = total_spin (sp_frags ref))) /\
  (forall p, combine_orthogonal_excitations e1 e2 ref c1 c2 true = Ok p ->
    length (sp_frags p) = length (sp_frags ref) /\
    total_spin (sp_frags p) = total_spin (sp_frags ref) /\
    total_elec (sp_frags p)
      = total_elec (sp_frags e1) + total_elec (sp_frags e2) - total_elec (sp_frags ref) /\
    (Z.even (total_elec (sp_frags p) - total_elec (sp_frags ref)) = true ->
       Forall spin_ok (sp_frags p)) /\
    (forall k f1 f2 r f, nth_error (sp_frags e1) k = Some f1 -> nth_error (sp_frags e2) k = Some f2 ->
       nth_error (sp_frags ref) k = Some r -> nth_error (sp_frags p) k = Some f ->
       f_charge f = f_charge f1 + f_charge f2 - f_charge r /\
       f_smult f = f_smult f1 + f_smult f2 - f_smult r /\
       local_ok (f_smult f) (f_spin f) /\
       f_norb f = f_norb r /\ f_nel0 f = f_nel0 r)).
Proof. exact (combine_flexible_spec e1 e2 ref c1 c2). Qed.
Print Assumptions C09_combine_flexible.
Example C09_case :
  let ref := mkspace [fr 2 2 0 0 1; fr 2 2 0 0 1; fr 2 2 0 0 1; fr 2 2 0 0 1] [] in
  let e1 := mkspace [fr 2 2 1 1 2; fr 2 2 (-1) (-1) 2; fr 2 2 0 0 1; fr 2 2 0 0 1] [[0;1]]%nat in
  let e2 := mkspace [fr 2 2 0 0 1; fr 2 2 0 0 1; fr 2 2 1 1 2; fr 2 2 (-1) 1 2] [[2;3]]%nat in
  combine_orthogonal_excitations e1 e2 ref false false true =
  Ok (mkspace [fr 2 2 1 (-1) 2; fr 2 2 (-1) (-1) 2; fr 2 2 1 1 2; fr 2 2 (-1) 1 2]
      [[0;1];[2;3]]%nat).
Proof. vm_compute. reflexivity. Qed.
(** without flexible_m the call dies unless both excitations carry CI vectors *)
Theorem C09_combine_fixed_m_without_ci_refuted : exists e1 e2 ref,
  Forall valid_frag (sp_frags e1) /\ Forall valid_frag (sp_frags e2) /\ Forall valid_frag (sp_frags ref) /\
  orthogonal_excitations (sp_frags e1) (sp_frags e2) (sp_frags ref) false = true /\
  combine_orthogonal_excitations e1 e2 ref false false false = Raise TypeError.
Proof.
  exists (mkspace [fr 2 2 1 1 2; fr 2 2 (-1) (-1) 2; fr 2 2 0 0 1; fr 2 2 0 0 1] []),
    (mkspace [fr 2 2 0 0 1; fr 2 2 0 0 1; fr 2 2 1 1 2; fr 2 2 (-1) (-1) 2] []),
    (mkspace [fr 2 2 0 0 1; fr 2 2 0 0 1; fr 2 2 0 0 1; fr 2 2 0 0 1] []).
  split; [|split; [|split]]; cbn [sp_frags]; [| | |split; vm_compute; reflexivity].
  all: repeat constructor; first [exists 1, 1; vm_compute; repeat split; discriminate
    |exists 1, 0; vm_compute; repeat split; discriminate
    |exists 1, 2; vm_compute; repeat split; discriminate].
Qed.
Print Assumptions C09_combine_fixed_m_without_ci_refuted.

(** ** C10 *)
Theorem C10_szrot_exact V sdown sup f c :
  spin_ok f ->
  (forall x, In x (map fst (get_ci_szrot V sdown sup f c)) <->
     - (f_smult f - 1) <= x <= f_smult f - 1 /\ Z.even (f_smult f - 1 - x) = true) /\
  (forall k : nat, - (f_smult f - 1) <= f_spin f - 2 * Z.of_nat k ->
     lookup (f_spin f - 2 * Z.of_nat k) (get_ci_szrot V sdown sup f c)
     = Some (lower V sdown k (neleca f) (nelecb f) c)) /\
  (forall k : nat, f_spin f + 2 * Z.of_nat k <= f_smult f - 1 ->
     lookup (f_spin f + 2 * Z.of_nat k) (get_ci_szrot V sdown sup f c)
     = Some (raise_ V sup k (neleca f) (nelecb f) c)).
Proof. exact (szrot_exact V sdown sup f c). Qed.
Print Assumptions C10_szrot_exact.
Theorem C10_fcisolvers_exact f :
  spin_ok f -> parity_ok f ->
  (forall x, In x (map fst (get_fcisolvers_szrot f)) <->
     - (f_smult f - 1) <= x <= f_smult f - 1 /\ Z.even (f_smult f - 1 - x) = true) /\
  (forall x r, In (x, r) (get_fcisolvers_szrot f) ->
     exists na nb, r = Ok (na, nb, x) /\ na - nb = x /\ na + nb = f_nel0 f - f_charge f).
Proof. exact (fcisolvers_szrot_exact f). Qed.
Print Assumptions C10_fcisolvers_exact.
(** every spin shuffle of a space finds its entries *)
Theorem C10_lookups_never_miss V sdown sup s t k f g c :
  Forall spin_ok (sp_frags s) -> shuffled s t ->
  nth_error (sp_frags s) k = Some f -> nth_error (sp_frags t) k = Some g ->
  lookup (f_spin g) (get_ci_szrot V sdown sup f c) <> None.
Proof. exact (shuffled_lookup V sdown sup s t k f g c). Qed.
Print Assumptions C10_lookups_never_miss.
Example C10_case : get_ci_szrot Z (fun na nb c => 10 * c + 1) (fun na nb c => 10 * c + 2) (fr 4 4 0 0 5) 7
  = [(0, 7); (-2, 71); (-4, 711); (2, 72); (4, 722)].
Proof. vm_compute. reflexivity. Qed.

(** ** C48 *)
Theorem C48_orthogonal_by_smult_exact sm1 sm2 :
  Forall (fun S => 1 <= S) sm1 -> Forall (fun S => 1 <= S) sm2 ->
  Z.even (sumZ (s2of sm1) - sumZ (s2of sm2)) = true ->
  (is_orthogonal_by_smult sm1 sm2 = true <->
   ~ exists S, can_couple (s2of sm1) S /\ can_couple (s2of sm2) S).
Proof. exact (orthogonal_by_smult_exact sm1 sm2). Qed.
Print Assumptions C48_orthogonal_by_smult_exact.
Example C48_case : is_orthogonal_by_smult [5; 1] [2; 2] = true /\ is_orthogonal_by_smult [5; 3] [2; 2] = false.
Proof. vm_compute. split; reflexivity. Qed.

(** ** C49 *)
Theorem C49_count_excitations_exact hash O csf (HC : csf_sound csf) l0 n k l :
  Forall (good O) l0 ->
  count_excitations hash csf l0 = Ok (n, k, l) ->
  n = length l /\ (NoDup l0 -> NoDup l) /\
  (forall t, In t l <-> exists s, In s l0 /\ reach s t).
Proof. exact (count_excitations_exact hash O csf HC l0 n k l). Qed.
Print Assumptions C49_count_excitations_exact.
Example C49_case : exists k l, 
  count_excitations (fun _ => 0) csf1 [mkspace [fr 1 1 0 1 2; fr 1 1 0 (-1) 2] []] = Ok (4%nat, k, l).
Proof. eexists _, _. vm_compute. reflexivity. Qed.
