(** Properties C45, C46, C47. *)
From Coq Require Import List ZArith QArith Bool Lia Sorted.
From Verif Require Import Base BaseFacts SpacesModel SpacesSpec SpacesTables SpacesCoupling SpinModel.
Import ListNotations.
Local Open Scope Z_scope.

(** * C45 *)
(** [e] is the energy of the lowest state with the given spin *)
Definition lowest (states : list (Q * Z)) (s2 : Z) (e : Q) : Prop :=
  (exists x, In x states /\ snd x = s2 /\ fst x = e) /\ forall x, In x states -> snd x = s2 -> (e <= fst x)%Q.
Lemma insert_e_in x l y : In y (insert_e x l) <-> y = x \/ In y l.
Proof. induction l as [|z l IH]; cbn; [intuition|]. destruct (Qle_bool _ _); cbn; [intuition|]. rewrite IH. intuition. Qed.
Lemma sort_e_in l y : In y (sort_e l) <-> In y l.
Proof. induction l as [|x l IH]; [reflexivity|]. cbn. rewrite insert_e_in, IH. intuition. Qed.
Lemma sort_e_sorted l : StronglySorted (fun x y => fst x <= fst y)%Q (sort_e l).
Proof.
  induction l as [|x l IH]; [constructor|]. change (sort_e (x :: l)) with (insert_e x (sort_e l)). revert IH. generalize (sort_e l) as l0. clear l. induction 1 as [|y l' H1 IH1 H2]; [repeat constructor|]. cbn.
  destruct (Qle_bool (fst x) (fst y)) eqn:E.
  - apply Qle_bool_iff in E. constructor; [constructor; assumption|]. constructor; [exact E|].
    rewrite Forall_forall in *. intros z Hz. eapply Qle_trans; [exact E | now apply H2].
  - assert (fst y <= fst x)%Q as E'. { destruct (Qlt_le_dec (fst x) (fst y)) as [L|L]; [|exact L]. apply Qlt_le_weak, Qle_bool_iff in L. congruence. }
    constructor; [exact IH1|]. rewrite Forall_forall in *. intros z Hz. apply insert_e_in in Hz as [->|Hz]; [exact E' | now apply H2].
Qed.
Lemma find_lowest states s2 x : find (fun y => snd y =? s2) (sort_e states) = Some x -> lowest states s2 (fst x).
Proof.
  intros H. pose proof (find_some _ _ H) as [H1 H2]. apply Z.eqb_eq in H2. apply (proj1 (sort_e_in _ _)) in H1. split; [now exists x|].
  intros y Hy Hs. apply (sort_e_in states) in Hy. pose proof (sort_e_sorted states) as S. revert H Hy S. generalize (sort_e states). clear -Hs.
  induction l as [|z l IH]; [easy|]. cbn. intros H Hy S. inversion S; subst. destruct (Z.eqb_spec (snd z) (snd y)).
  - injection H as <-. destruct Hy as [->|Hy]; [apply Qle_refl|]. rewrite Forall_forall in H3. now apply H3.
  - destruct Hy as [->|Hy]; [congruence|]. now apply IH.
Qed.
(** What is returned: the gap between the lowest states of the high spin and of spin 0 or 1/2, over 24 *)
Theorem C45_gap : forall states smult j, yamaguchi states (Some smult) = Ok j ->
  exists els ehs, lowest states (hundredths_s2 smult) ehs /\ lowest states (hundredths_s2 smult mod 100) els /\ (j == (els - ehs) / 24)%Q.
Proof.
  intros states smult j. unfold yamaguchi. cbn [bind]. destruct (find _ _) as [hs|] eqn:E1; [|discriminate].
  destruct (find (fun x => snd x =? _ - _) _) as [ls|] eqn:E2; [|discriminate]. intros [= <-].
  exists (fst ls), (fst hs). split; [now apply find_lowest|]. split; [|reflexivity]. apply find_lowest in E2.
  rewrite Z.mod_eq by lia. now rewrite Z.mul_comm.
Qed.
Print Assumptions C45_gap.
(** s(s+1) of a multiplicity, as in the docstring *)
Definition s2_of (smult : Z) : Q := (inject_Z (smult - 1) / 2 * (inject_Z (smult - 1) / 2 + 1))%Q.
(** The documented formula holds for multiplicity 10 (S = 9/2 against S = 1/2) *)
Theorem C45_decet_partial : forall states j, yamaguchi states (Some 10) = Ok j ->
  exists els ehs, lowest states (hundredths_s2 10) ehs /\ lowest states (hundredths_s2 2) els /\ (j == (els - ehs) / (s2_of 10 - s2_of 2))%Q.
Proof. intros states j H. destruct (C45_gap _ _ _ H) as (a & b & H1 & H2 & H3). exists a, b. repeat split; try apply H1; try apply H2. rewrite H3. assert (D : (s2_of 10 - s2_of 2 == 24)%Q) by reflexivity. now rewrite D. Qed.
Print Assumptions C45_decet_partial.
(** and for no other multiplicity, whatever the (different) energies: low spin is the singlet or doublet *)
Theorem C45_only_decet : forall smult els ehs, 2 < smult -> smult <> 10 -> ~ (els == ehs)%Q ->
  let low := if Z.even smult then 2 else 1 in
  exists j, yamaguchi [(els, hundredths_s2 low); (ehs, hundredths_s2 smult)] (Some smult) = Ok j
    /\ ~ (j == (els - ehs) / (s2_of smult - s2_of low))%Q.
Proof.
  intros smult els ehs Hs Hn He low.
  assert (Hlow : hundredths_s2 smult - hundredths_s2 smult / 100 * 100 = hundredths_s2 low).
  { rewrite Z.mul_comm, <- Z.mod_eq by lia. unfold hundredths_s2, low. destruct (Z.even smult) eqn:Ev.
    - apply Z.even_spec in Ev as [k ->]. replace (25 * (2 * k * (2 * k) - 1)) with (75 + (k * k - 1) * 100) by lia. rewrite Z.mod_add by lia. reflexivity.
    - assert (Z.odd smult = true) as Od by (rewrite <- Z.negb_even, Ev; reflexivity). apply Z.odd_spec in Od as [k ->].
      replace (25 * ((2 * k + 1) * (2 * k + 1) - 1)) with (0 + (k * k + k) * 100) by lia. rewrite Z.mod_add by lia. reflexivity. }
  assert (Hl : 1 <= low <= 2) by (unfold low; destruct (Z.even smult); lia).
  assert (Hne : hundredths_s2 low <> hundredths_s2 smult) by (unfold hundredths_s2; nia).
  exists ((els - ehs) / 24)%Q. split.
  - unfold yamaguchi. cbn [bind]. rewrite Hlow. clear Hlow. revert Hne. generalize (hundredths_s2 smult) as hi, (hundredths_s2 low) as lo. intros hi lo Hne.
    assert (N1 : (lo =? hi) = false) by now apply Z.eqb_neq. assert (N2 : (hi =? lo) = false) by (apply Z.eqb_neq; congruence).
    cbn [sort_e fold_right insert_e fst]. destruct (Qle_bool els ehs); cbn [find snd fst]; rewrite ?Z.eqb_refl, ?N1, ?N2; cbn [find snd fst]; rewrite ?Z.eqb_refl, ?N1, ?N2; reflexivity.
  - assert (D : (s2_of smult - s2_of low == (smult * smult - low * low) # 4)%Q).
    { unfold s2_of, Qeq. cbn. lia. }
    rewrite D. assert (P : 24 * 4 <> smult * smult - low * low).
    { unfold low. destruct (Z.even smult) eqn:Ev; [nia|]. intros X. assert (smult * smult = 97) by lia. assert (smult < 10) by nia. assert (smult > 9) by nia. lia. }
    assert (P0 : 0 < smult * smult - low * low) by nia.
    intros H. apply He. set (g := (els - ehs)%Q) in *. assert (G : (g == 0)%Q); [|unfold g in G; apply (Qplus_inj_r _ _ (- ehs)); rewrite G; ring].
    clearbody g. assert (Q1 : (g / 24 == g * (1 # 24))%Q) by (unfold Qdiv; reflexivity). rewrite Q1 in H. clear Q1.
    destruct (smult * smult - low * low) as [|d|d]; try lia. revert H. unfold Qdiv, Qinv, Qeq. cbn. destruct g as [gn gd]. cbn. nia.
Qed.
Print Assumptions C45_only_decet.
(** e.g. a triplet-singlet gap of 1 is reported as 1/24 instead of 1/2 *)
Theorem C45_refuted : exists states j, yamaguchi states (Some 3) = Ok j /\ lowest states 200 (-1 # 1) /\ lowest states 0 0%Q /\ ~ (j == (0 - -1) / (s2_of 3 - s2_of 1))%Q.
Proof.
  exists [(0%Q, 0); (-1 # 1, 200)], ((0 - -1) / 24)%Q. split; [vm_compute; reflexivity|].
  split; [|split]; [| |vm_compute; discriminate].
  - split; [exists (-1 # 1, 200); cbn; auto|]. intros x [<-|[<-|[]]]; [discriminate|]. intros _. apply Qle_refl.
  - split; [exists (0%Q, 0); cbn; auto|]. intros x [<-|[<-|[]]]; [|discriminate]. intros _. apply Qle_refl.
Qed.
Print Assumptions C45_refuted.
Example C45_example : yamaguchi [(-1 # 1, 75); (-1 # 2, 375); (-3 # 4, 75)] (Some 4) = Ok (((-1 # 1) - (-1 # 2)) / 24)%Q
  /\ yamaguchi [(-1 # 1, 200); (-1 # 2, 0)] None = Ok (((-1 # 2) - (-1 # 1)) / 24)%Q /\ yamaguchi [(1 # 1, 200)] None = Raise AssertionError.
Proof. repeat split. Qed.

(** * C46 *)
Theorem C46_norms : forall smult na nb, let s2 := smult - 1 in let m2 := na - nb in
  sdown4 smult na nb = sup4 smult (na - 1) (nb + 1) /\
  (inject_Z (sdown4 smult na nb) / 4 == (inject_Z s2 / 2) * (inject_Z s2 / 2 + 1) - (inject_Z m2 / 2) * (inject_Z m2 / 2 - 1))%Q /\
  (inject_Z (sup4 smult na nb) / 4 == (inject_Z s2 / 2) * (inject_Z s2 / 2 + 1) - (inject_Z m2 / 2) * (inject_Z m2 / 2 + 1))%Q /\
  (1 <= smult -> Z.even (s2 - m2) = true -> (0 < sdown4 smult na nb <-> - s2 < m2 <= s2) /\ (0 < sup4 smult na nb <-> - s2 <= m2 < s2)).
Proof.
  intros smult na nb s2 m2. split; [unfold sdown4, sup4; nia|]. split; [|split].
  - unfold Qeq, sdown4. fold s2 m2. cbn. lia.
  - unfold Qeq, sup4. fold s2 m2. cbn. lia.
  - intros H1 H2. unfold sdown4, sup4. fold s2 m2. apply Z.even_spec in H2 as [k Hk]. assert (0 <= s2) by lia. clearbody s2 m2.
    replace m2 with (s2 - 2 * k) by lia. clear Hk m2.
    split; split; intros H0.
    + assert (0 < (k + 1) * (s2 - k)) as P by lia. apply Z.lt_0_mul in P. lia.
    + assert (0 < (k + 1) * (s2 - k)) as P by (apply Z.mul_pos_pos; lia). lia.
    + assert (0 < k * (s2 - k + 1)) as P by lia. apply Z.lt_0_mul in P. lia.
    + assert (0 < k * (s2 - k + 1)) as P by (apply Z.mul_pos_pos; lia). lia.
Qed.
Print Assumptions C46_norms.

Section Roundtrip.
  (** Vectors with a spin ladder: [inM m v] says that v belongs to projection m/2 of a multiplet of the given multiplicity. *)
  Variable V : Type.
  Variables (sdown sup : Z * Z -> V -> V) (divn : Z -> V -> V).
  Variable smult : Z.
  Variable inM : Z -> V -> Prop.
  (** S- and S+ move within the multiplet, as do divisions *)
  Hypothesis sdown_in : forall na nb v, inM (na - nb) v -> inM (na - nb - 2) (sdown (na, nb) v).
  Hypothesis divn_in : forall x m v, inM m v -> inM m (divn x v).
  (** S+ is linear, divisions commute *)
  Hypothesis sup_lin : forall ne x v, sup ne (divn x v) = divn x (sup ne v).
  (** S+ S- v = (s (s+1) - m (m-1)) v, and that is undone by dividing twice by its square root *)
  Hypothesis casimir : forall na nb v, inM (na - nb) v -> - (smult - 1) < na - nb <= smult - 1 ->
    divn (sdown4 smult na nb) (divn (sdown4 smult na nb) (sup (na - 1, nb + 1) (sdown (na, nb) v))) = v.

  Lemma mdown_S na nb v : (0 < nsteps smult na nb)%nat ->
    mdown V sdown divn smult na nb v = divn (sdown4 smult (na + 1) (nb - 1)) (sdown (na + 1, nb - 1) (mdown V sdown divn smult (na + 1) (nb - 1) v)).
  Proof.
    intros H. unfold mdown. assert (E : nsteps smult na nb = S (nsteps smult (na + 1) (nb - 1))).
    { unfold nsteps in *. replace (smult - 1 - (na + 1 - (nb - 1))) with (smult - 1 - (na - nb) + (-1) * 2) by lia. rewrite Z.div_add by lia. lia. }
    rewrite E. cbn [seq rev]. rewrite map_app, fold_left_app. cbn [map fold_left]. f_equal. f_equal.
    rewrite <- seq_shift, <- map_rev, map_map.
    generalize (rev (seq 1 (nsteps smult (na + 1) (nb - 1)))) as l. intros l. revert v. induction l as [|k l IH]; intros v; [reflexivity|].
    cbn [map fold_left]. rewrite IH. f_equal. rewrite Nat2Z.inj_succ.
    replace (na + Z.succ (Z.of_nat k)) with (na + 1 + Z.of_nat k) by lia. replace (nb - Z.succ (Z.of_nat k)) with (nb - 1 - Z.of_nat k) by lia. reflexivity.
  Qed.
  Lemma mup_S na nb v : (0 < nsteps smult na nb)%nat ->
    mup V sup divn smult na nb v = mup V sup divn smult (na + 1) (nb - 1) (divn (sup4 smult na nb) (sup (na, nb) v)).
  Proof.
    intros H. unfold mup. assert (E : nsteps smult na nb = S (nsteps smult (na + 1) (nb - 1))).
    { unfold nsteps in *. replace (smult - 1 - (na + 1 - (nb - 1))) with (smult - 1 - (na - nb) + (-1) * 2) by lia. rewrite Z.div_add by lia. lia. }
    rewrite E. cbn [seq map fold_left]. rewrite !Z.add_0_r, !Z.sub_0_r. generalize (divn (sup4 smult na nb) (sup (na, nb) v)). clear v.
    rewrite <- seq_shift, map_map. generalize (seq 0 (nsteps smult (na + 1) (nb - 1))) as l. induction l as [|k l IH]; intros v; [reflexivity|].
    cbn [map fold_left]. rewrite IH. f_equal. rewrite Nat2Z.inj_succ.
    replace (na + Z.succ (Z.of_nat k)) with (na + 1 + Z.of_nat k) by lia. replace (nb - Z.succ (Z.of_nat k)) with (nb - 1 - Z.of_nat k) by lia. reflexivity.
  Qed.
  Lemma mdown_in k : forall na nb v, nsteps smult na nb = k -> Z.even (smult - 1 - (na - nb)) = true -> na - nb <= smult - 1 ->
    inM (smult - 1) v -> inM (na - nb) (mdown V sdown divn smult na nb v).
  Proof.
    induction k as [|k IH]; intros na nb v E Ev Hm Hv.
    - assert (na - nb = smult - 1) as ->. { unfold nsteps in E. apply Z.even_spec in Ev as [q Hq]. rewrite Hq in E. rewrite Z.mul_comm, Z.div_mul in E by lia. lia. }
      unfold mdown. rewrite E. exact Hv.
    - rewrite mdown_S by lia. apply divn_in.
      assert (E' : nsteps smult (na + 1) (nb - 1) = k).
      { unfold nsteps in *. replace (smult - 1 - (na + 1 - (nb - 1))) with (smult - 1 - (na - nb) + (-1) * 2) by lia. rewrite Z.div_add by lia. lia. }
      assert (L : na + 1 - (nb - 1) <= smult - 1).
      { unfold nsteps in E. apply Z.even_spec in Ev as [q Hq]. rewrite Hq in E. rewrite Z.mul_comm, Z.div_mul in E by lia. lia. }
      replace (na - nb) with (na + 1 - (nb - 1) - 2) by lia. apply sdown_in. apply IH; auto.
      replace (smult - 1 - (na + 1 - (nb - 1))) with (smult - 1 - (na - nb) - 2) by lia. rewrite Z.even_sub, Ev. reflexivity.
  Qed.
  (** Lowering the high-spin vector to the requested projection and raising it again gives it back *)
  Lemma ladder_roundtrip k : forall na nb v, nsteps smult na nb = k -> Z.even (smult - 1 - (na - nb)) = true ->
    - (smult - 1) <= na - nb <= smult - 1 -> inM (smult - 1) v ->
    mup V sup divn smult na nb (mdown V sdown divn smult na nb v) = v.
  Proof.
    induction k as [|k IH]; intros na nb v E Ev Hm Hv.
    - unfold mup, mdown. rewrite E. reflexivity.
    - rewrite mup_S, mdown_S by lia.
      assert (E' : nsteps smult (na + 1) (nb - 1) = k).
      { unfold nsteps in *. replace (smult - 1 - (na + 1 - (nb - 1))) with (smult - 1 - (na - nb) + (-1) * 2) by lia. rewrite Z.div_add by lia. lia. }
      assert (L : na + 1 - (nb - 1) <= smult - 1).
      { unfold nsteps in E. apply Z.even_spec in Ev as [q Hq]. rewrite Hq in E. rewrite Z.mul_comm, Z.div_mul in E by lia. lia. }
      assert (Ev' : Z.even (smult - 1 - (na + 1 - (nb - 1))) = true).
      { replace (smult - 1 - (na + 1 - (nb - 1))) with (smult - 1 - (na - nb) - 2) by lia. rewrite Z.even_sub, Ev. reflexivity. }
      rewrite sup_lin. replace (sup4 smult na nb) with (sdown4 smult (na + 1) (nb - 1)) by (unfold sup4, sdown4; nia).
      rewrite <- (IH (na + 1) (nb - 1) v E' Ev') at 2 by (auto; lia). f_equal.
      pose proof (casimir (na + 1) (nb - 1) (mdown V sdown divn smult (na + 1) (nb - 1) v)) as C.
      replace (na + 1 - 1) with na in C by lia. replace (nb - 1 + 1) with nb in C by lia. apply C; [|lia].
      now apply (mdown_in k).
  Qed.
End Roundtrip.
Theorem C46_roundtrip : forall V sdown sup divn smult (inM : Z -> V -> Prop),
  (forall na nb v, inM (na - nb) v -> inM (na - nb - 2) (sdown (na, nb) v)) ->
  (forall x m v, inM m v -> inM m (divn x v)) ->
  (forall ne x v, sup ne (divn x v) = divn x (sup ne v)) ->
  (forall na nb v, inM (na - nb) v -> - (smult - 1) < na - nb <= smult - 1 ->
    divn (sdown4 smult na nb) (divn (sdown4 smult na nb) (sup (na - 1, nb + 1) (sdown (na, nb) v))) = v) ->
  forall na nb v, Z.even (smult - 1 - (na - nb)) = true -> - (smult - 1) <= na - nb <= smult - 1 -> inM (smult - 1) v ->
  inM (na - nb) (mdown V sdown divn smult na nb v) /\ mup V sup divn smult na nb (mdown V sdown divn smult na nb v) = v.
Proof.
  intros V sdown sup divn smult inM H1 H2 H3 H4 na nb v Ev Hm Hv. split.
  - now apply (mdown_in V sdown divn smult inM H1 H2 _ na nb v eq_refl).
  - now apply (ladder_roundtrip V sdown sup divn smult inM H1 H2 H3 H4 _ na nb v eq_refl).
Qed.
Print Assumptions C46_roundtrip.
(** Which contractions are made: from the high-spin electrons down to the requested ones, one electron at a time,
    the last from (na + 1, nb - 1) *)
Theorem C46_calls : forall smult na nb, Z.even (smult - 1 - (na - nb)) = true -> na - nb <= smult - 1 ->
  let log (op : Z) (ne : Z * Z) (v : list (Z * Z * Z)) := v ++ [(op, fst ne, snd ne)] in
  let n := nsteps smult na nb in
  let ha := (na + nb + (smult - 1)) / 2 in let hb := (na + nb - (smult - 1)) / 2 in
  2 * Z.of_nat n = smult - 1 - (na - nb) /\ ha - hb = smult - 1 /\ ha + hb = na + nb /\
  mdown _ (log (-1)) (fun _ v => v) smult na nb [] = map (fun k => (-1, ha - Z.of_nat k, hb + Z.of_nat k)) (seq 0 n) /\
  mup _ (log 1) (fun _ v => v) smult na nb [] = map (fun k => (1, na + Z.of_nat k, nb - Z.of_nat k)) (seq 0 n).
Proof.
  intros smult na nb Ev Hm log n ha hb. apply Z.even_spec in Ev as [q Hq].
  assert (Hn : Z.of_nat n = q). { unfold n, nsteps. rewrite Hq, Z.mul_comm, Z.div_mul by lia. lia. }
  assert (Ha : ha = na + q). { unfold ha. replace (na + nb + (smult - 1)) with ((na + q) * 2) by lia. now rewrite Z.div_mul. }
  assert (Hb : hb = nb - q). { unfold hb. replace (na + nb - (smult - 1)) with ((nb - q) * 2) by lia. now rewrite Z.div_mul. }
  split; [lia|]. split; [lia|]. split; [lia|].
  assert (F : forall op l v, fold_left (fun v j => log op (na + j, nb - j) v) l v = v ++ map (fun j => (op, na + j, nb - j)) l).
  { intros op l. induction l as [|j l IH]; intros v; cbn; [now rewrite app_nil_r|]. rewrite IH. unfold log. now rewrite <- app_assoc. }
  unfold mdown, mup. fold n. rewrite !F. cbn [app]. rewrite !map_map. split; [|reflexivity].
  rewrite Ha, Hb, <- Hn. clearbody n. clear. induction n as [|n IH]; [reflexivity|].
  rewrite (seq_S n 1), rev_app_distr. cbn [rev app map]. rewrite IH. change (seq 0 (S n)) with (0%nat :: seq 1 n). cbn [map].
  f_equal; [apply f_equal2; [apply f_equal2|]; lia|].
  rewrite <- (seq_shift n 0), map_map. apply map_ext. intros k. apply f_equal2; [apply f_equal2|]; lia.
Qed.
Print Assumptions C46_calls.
Example C46_example : sdown4 4 3 0 = 12 /\ sdown4 4 2 1 = 16 /\ sdown4 4 0 3 = 0 /\ sup4 4 0 3 = 12 /\
  mdown _ (fun ne v => v ++ [ne]) (fun _ v => v) 4 1 2 [] = [(3, 0); (2, 1)].
Proof. repeat split. Qed.

(** * C47 *)
Lemma lower_ok : forall smults acc spin, Forall (fun S => 1 <= S) smults -> sumZ acc - sumZ (s2of smults) <= spin <= sumZ acc + sumZ (s2of smults) ->
  Z.even (sumZ acc + sumZ (s2of smults) - spin) = true ->
  exists low, lower_spins acc smults (s2of smults) spin = Ok (acc ++ low) /\ sumZ acc + sumZ low = spin
    /\ Forall2 (fun S m => - (S - 1) <= m <= S - 1 /\ Z.even (S - 1 - m) = true) smults low.
Proof.
  induction smults as [|S smults IH]; intros acc spin Hp Hr Hev.
  - exists []. cbn in *. rewrite app_nil_r. split; [reflexivity|]. split; [lia | constructor].
  - inversion Hp as [|? ? H1 H2]; subst. cbn [s2of map sumZ lower_spins] in *. fold (s2of smults) in *.
    set (ds := Z.min (sumZ acc + (S - 1 + sumZ (s2of smults)) - spin) (2 * (S - 1))).
    assert (N : 0 <= sumZ (s2of smults)). { clear -H2. induction H2; cbn; [lia|]. fold (s2of l). lia. }
    assert (D0 : 0 <= ds) by (unfold ds; lia). rewrite (proj2 (Z.leb_le _ _) D0). cbn [py_assert].
    apply Z.even_spec in Hev as [q Hq]. assert (Dq : ds = 2 * Z.min q (S - 1)) by (unfold ds; lia).
    assert (E : ds / 2 * 2 = ds). { rewrite Dq. rewrite (Z.mul_comm 2 (Z.min _ _)), Z.div_mul by lia. reflexivity. }
    rewrite E. destruct (IH (acc ++ [S - 1 - ds]) spin H2) as (low & L1 & L2 & L3).
    + rewrite sumZ_app. cbn. unfold ds. lia.
    + rewrite sumZ_app. cbn. apply Z.even_spec. exists (q - Z.min q (S - 1)). lia.
    + exists (S - 1 - ds :: low). rewrite L1, <- app_assoc. split; [reflexivity|]. rewrite sumZ_app in L2. cbn [sumZ] in *. split; [lia|]. constructor; [|exact L3].
      split; [lia|]. replace (S - 1 - (S - 1 - ds)) with ds by lia. apply Z.even_spec. exists (ds / 2). lia.
Qed.
(** the projection and multiplicity that are meant by the arguments *)
Definition wanted (smults : list Z) (spin smult : option Z) (m s : Z) : Prop :=
  match spin, smult with
  | None, None => m = sumZ (s2of smults) /\ s = m + 1
  | None, Some s' => s = s' /\ m = s - 1
  | Some m', None => m = m' /\ s = m + 1
  | Some m', Some s' => m = m' /\ s = s'
  end.
Theorem C47_succeeds : forall smults spin smult m s, Forall (fun S => 1 <= S) smults -> smults <> [] -> wanted smults spin smult m s ->
  Z.abs m <= sumZ (s2of smults) -> Z.even (sumZ (s2of smults) - m) = true -> Z.even (s - 1 - m) = true ->
  exists t1 t2, get_spincoup_bases smults spin smult = Ok (t1, t2)
    /\ StronglySorted lexlt t1 /\ (forall t, In t t1 <-> microstate smults m t)
    /\ StronglySorted lexlt t2 /\ (forall t, In t t2 <-> coupling 0 (s2of smults) t (s - 1)) /\ t1 <> [].
Proof.
  intros smults spin smult m s Hp Hne Hw Hm Hev Hs. unfold get_spincoup_bases.
  assert (W : match spin, smult with
    | None, None => (sumZ (map (fun S => S - 1) smults), sumZ (map (fun S => S - 1) smults) + 1)
    | None, Some s => (s - 1, s) | Some m, None => (m, m + 1) | Some m, Some s => (m, s) end = (m, s)).
  { unfold wanted, s2of in Hw. destruct spin, smult; destruct Hw as [-> ->]; reflexivity. }
  rewrite W. clear W Hw spin smult.
  destruct (lower_ok smults [] m Hp) as (low & L1 & L2 & L3); [cbn; lia | exact Hev|]. fold (s2of smults). rewrite L1. cbn [bind app].
  cbn in L2. rewrite (proj2 (Z.eqb_eq _ _) L2). cbn [py_assert].
  assert (B1 : forallb (fun p => Z.abs (fst p) <? snd p) (combine low smults) = true).
  { clear -L3. induction L3 as [|S m l l' [H1 H2] _ IH]; [reflexivity|]. cbn. rewrite IH, andb_true_r. apply Z.ltb_lt. lia. }
  assert (B2 : forallb (fun p => (fst p) mod 2 =? (snd p - 1) mod 2) (combine low smults) = true).
  { clear -L3. induction L3 as [|S m l l' [H1 H2] _ IH]; [reflexivity|]. cbn. rewrite IH, andb_true_r. apply Z.eqb_eq.
    apply Z.even_spec in H2 as [q Hq]. replace (S - 1) with (m + q * 2) by lia. now rewrite Z.mod_add. }
  rewrite B1, B2. cbn [py_assert].
  destruct (spin_table_exact smults low Hp) as (t1 & E1 & S1 & M1); [lia | now rewrite L2|].
  destruct (smult_table_exact smults Hp Hne s) as (t2 & E2 & S2 & M2).
  { replace (sumZ (s2of smults) - (s - 1)) with ((sumZ (s2of smults) - m) - (s - 1 - m)) by lia. now rewrite Z.even_sub, Hev, Hs. }
  rewrite E1. cbn [bind]. rewrite E2. cbn [bind]. exists t1, t2. rewrite L2 in M1.
  refine (conj eq_refl (conj S1 (conj M1 (conj S2 (conj M2 _))))).
  intros ->. assert (In low []) as []. apply M1. split; [exact L3 | exact L2].
Qed.
Print Assumptions C47_succeeds.
(** Outside this range the request is rejected *)
Lemma lower_bounds : forall smults acc spin r, Forall (fun S => 1 <= S) smults -> lower_spins acc smults (s2of smults) spin = Ok r ->
  sumZ acc - sumZ (s2of smults) <= sumZ r <= sumZ acc + sumZ (s2of smults) /\ Z.even (sumZ acc + sumZ (s2of smults) - sumZ r) = true.
Proof.
  induction smults as [|S smults IH]; intros acc spin r Hp H.
  - cbn in *. injection H as <-. split; [lia|]. now replace (sumZ acc + 0 - sumZ acc) with 0 by lia.
  - inversion Hp as [|? ? H1 H2]; subst. cbn [s2of map sumZ lower_spins] in *. fold (s2of smults) in *.
    set (ds := Z.min (sumZ acc + (S - 1 + sumZ (s2of smults)) - spin) (2 * (S - 1))) in *.
    destruct (Z.leb_spec 0 ds); [|discriminate]. cbn [py_assert] in H. apply IH in H; [|exact H2]. rewrite sumZ_app in H. cbn in H. destruct H as [B E].
    assert (0 <= ds / 2 * 2 <= 2 * (S - 1)). { pose proof (Z.mul_div_le ds 2). assert (0 <= ds / 2) by (apply Z.div_pos; lia). unfold ds in *. lia. }
    split; [lia|]. apply Z.even_spec in E as [q Hq]. apply Z.even_spec. exists (q + ds / 2). lia.
Qed.
Theorem C47_rejects : forall smults spin smult m s r, Forall (fun S => 1 <= S) smults -> wanted smults spin smult m s ->
  get_spincoup_bases smults spin smult = Ok r -> Z.abs m <= sumZ (s2of smults) /\ Z.even (sumZ (s2of smults) - m) = true.
Proof.
  intros smults spin smult m s r Hp Hw. unfold get_spincoup_bases.
  assert (W : match spin, smult with
    | None, None => (sumZ (map (fun S => S - 1) smults), sumZ (map (fun S => S - 1) smults) + 1)
    | None, Some s => (s - 1, s) | Some m, None => (m, m + 1) | Some m, Some s => (m, s) end = (m, s)).
  { unfold wanted, s2of in Hw. destruct spin, smult; destruct Hw as [-> ->]; reflexivity. }
  rewrite W. fold (s2of smults). destruct (lower_spins [] smults (s2of smults) m) as [low|] eqn:E; [|discriminate]. cbn [bind].
  destruct (Z.eqb_spec (sumZ low) m) as [<-|]; [|discriminate]. intros _. apply lower_bounds in E; [|exact Hp]. cbn in E. split; [lia | apply E].
Qed.
Print Assumptions C47_rejects.
Example C47_example : get_spincoup_bases [2; 3; 2] (Some 0) (Some 3) = Ok ([[-1; 0; 1]; [-1; 2; -1]; [1; -2; 1]; [1; 0; -1]], [[1; 0; 1]; [1; 2; -1]])
  /\ get_spincoup_bases [2; 3] (Some 0) None = Raise AssertionError /\ get_spincoup_bases [2; 3] (Some 5) None = Raise AssertionError.
Proof. repeat split; vm_compute; reflexivity. Qed.
