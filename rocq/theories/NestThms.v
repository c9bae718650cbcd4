(** Maps of maps, C90 (proofs). *)
From Verif Require Import NestSpec MapThms3 MapThms4 QuantThms CollThms ElemSpec ElemFacts ElemOps ElemThms ElemThms2.
From Verif Require Import MapModel.
From Coq Require Import Sorted Eqdep_dec.
From Coq Require Bool.

Section Nest.
Context (Y : dom) (HT : strict_total Y) (CC : codomain) (Hco : eq_ok CC) (absorbs total : bool).
Notation V := (C CC).
Notation p := (icl_par absorbs total).
Notation IM := (icl_map Y CC absorbs total).
Notation emap := (list (D Y * V)).
Notation entry := (entry Y CC absorbs).
Notation entries := (entries Y CC absorbs).
Notation to_emap := (to_emap Y CC absorbs).
Notation good_at := (good_at CC p).

Lemma keys_sorted_ok (l : emap) : keys_sorted Y CC l = true <-> esorted Y l.
Proof.
  split.
  - intros H. apply Sorted_StronglySorted. { intros a b c. unfold lt. apply HT. }
    induction l as [|n l IH]; [constructor|]. destruct l as [|m l].
    + constructor; constructor.
    + cbn [keys_sorted] in H. apply andb_prop in H. destruct H as [H1 H2]. constructor; [apply IH; exact H2|]. constructor. exact H1.
  - induction l as [|n l IH]; intros H; [reflexivity|]. inversion H as [|? ? H1 H2]; subst. destruct l as [|m l]; [reflexivity|].
    specialize (IH H1). cbn [keys_sorted] in *. rewrite IH. inversion H2; subst. unfold lt in *. rewrite Bool.andb_true_r. assumption.
Qed.
Lemma map_ok_ok (l : emap) : map_ok Y CC absorbs l = true <-> esorted Y l /\ forall y, good_at (eat Y l y).
Proof.
  unfold map_ok. rewrite Bool.andb_true_iff, keys_sorted_ok, forallb_forall. split.
  - intros [S H]. split; [exact S|]. intros y Ea E. cbn in Ea. apply (eat_in Y HT) in E. specialize (H _ E). cbn in H.
    rewrite Ea, (proj2 (Hco _ _) eq_refl) in H. discriminate.
  - intros [S H]. split; [exact S|]. intros [y v] Hn. cbn. destruct absorbs eqn:Ea; [|reflexivity]. cbn. destruct (cc_eq v cc_zero) eqn:E; [|reflexivity].
    apply Hco in E. subst. apply (eat_sorted Y HT) in Hn; [|exact S]. exfalso. exact (H y eq_refl Hn).
Qed.
Lemma entries_sorted (m : IM) : esorted Y (entries m). Proof. apply map_ok_ok. exact (proj2_sig m). Qed.
Lemma entry_good (m : IM) y : good_at (entry m y). Proof. apply (proj1 (map_ok_ok _) (proj2_sig m)). Qed.
Lemma entries_nodup (m : IM) : NoDup (map fst (entries m)). Proof. apply (sorted_nodup Y HT). apply entries_sorted. Qed.
Lemma emap_eq (m o : IM) : entries m = entries o -> m = o.
Proof. destruct m as [l Hl], o as [r Hr]. cbn. intros ->. f_equal. apply UIP_dec. apply Bool.bool_dec. Qed.
Lemma entry_ext (m o : IM) : (forall y, entry m y = entry o y) -> m = o.
Proof. intros H. apply emap_eq. apply (eat_ext Y HT); [apply entries_sorted|apply entries_sorted|exact H]. Qed.
Lemma entries_to (r : res emap) l : r = Ok l -> esorted Y l -> (forall y, good_at (eat Y l y)) -> entries (to_emap r) = l.
Proof.
  intros -> S G. assert (H : map_ok Y CC absorbs l = true) by (apply map_ok_ok; split; assumption).
  unfold NestSpec.to_emap. destruct (Bool.bool_dec (map_ok Y CC absorbs l) true) as [e|n]; [reflexivity|contradiction].
Qed.
Lemma icl_map_ok : eq_ok IM.
Proof.
  intros m o. cbn. rewrite (em_eqb_ok Y HT CC Hco p _ _ (entries_sorted m) (entries_sorted o)). split; [apply entry_ext|intros ->; reflexivity].
Qed.
(** an operator that combines entry by entry *)
Lemma op_entry (f : emap -> emap -> res emap) (g : option V -> option V -> option V) (m o : IM) :
  (exists l, f (entries m) (entries o) = Ok l /\ esorted Y l /\ forall y, eat Y l y = g (entry m y) (entry o y)) ->
  (forall c d, good_at c -> good_at d -> good_at (g c d)) ->
  forall y, entry (to_emap (f (entries m) (entries o))) y = g (entry m y) (entry o y).
Proof.
  intros (l & E & S & Q) G y. rewrite <- Q. unfold NestSpec.entry. rewrite (entries_to _ l E S); [reflexivity|].
  intros z. rewrite Q. apply G; apply entry_good.
Qed.
Lemma store_good v : good_at (store CC p v).
Proof. intros Ea. unfold store, absorbed. rewrite Ea. cbn. destruct (cc_eq v cc_zero) eqn:E; [discriminate|]. intros [= ->]. rewrite (proj2 (Hco _ _) eq_refl) in E. discriminate. Qed.
Lemma not_absorbed v : good_at (Some v) -> absorbed CC p v = false.
Proof. intros G. unfold absorbed. destruct (mp_absorbs p) eqn:Ea; [|reflexivity]. cbn. destruct (cc_eq v cc_zero) eqn:E; [|reflexivity]. apply Hco in E. subst. exfalso. exact (G Ea eq_refl). Qed.

Lemma add_entry (m o : IM) : (forall v : V, cc_add cc_zero v = v) -> forall y, entry (cc_add m o) y = padd CC p (entry m y) (entry o y).
Proof.
  intros Z. apply op_entry.
  - destruct (add_map_upd Y HT CC p (entries m) (entries o) (entries_sorted m) (entries_nodup o)) as (l & E & S & Q). exists l. split; [exact E|]. split; [exact S|].
    intros y. rewrite Q. unfold padd, NestSpec.entry, eat. destruct (find _ (entries o)) as [n|]; [|reflexivity].
    apply (hint_plus CC Hco p F_plus); [exact Z|intros v H; exact H].
  - intros c d Gc Gd. destruct d as [v|]; [|exact Gc]. unfold padd, add_val, plus_val. rewrite (not_absorbed v Gd). destruct c; [apply store_good|exact Gd].
Qed.
Lemma add_entry_cases (m o : IM) : (forall v : V, cc_add cc_zero v = v) -> forall y, entry (cc_add m o) y =
  match entry m y, entry o y with
  | Some v, Some w => if absorbs && cc_eq (cc_add v w) cc_zero then None else Some (cc_add v w)
  | Some v, None => Some v
  | None, r => r
  end.
Proof.
  intros Z y. rewrite (add_entry m o Z y). pose proof (entry_good o y) as G. unfold padd, add_val, plus_val.
  destruct (entry o y) as [w|]; [|destruct (entry m y); reflexivity]. rewrite (not_absorbed w G). destruct (entry m y); reflexivity.
Qed.
Lemma sub_entry (m o : IM) : (total = true -> cc_invertible CC = true -> forall v : V, cc_sub cc_zero v = cc_zero -> v = cc_zero) ->
  forall y, entry (cc_sub m o) y = psub CC p (entry m y) (entry o y).
Proof.
  intros Z. apply op_entry.
  - destruct (subtract_map_upd Y HT CC p (entries m) (entries o) (entries_sorted m) (entries_nodup o)) as (l & E & S & Q). exists l. split; [exact E|]. split; [exact S|].
    intros y. rewrite Q. pose proof (entry_good o y) as G. unfold psub, NestSpec.entry, eat in *. destruct (find _ (entries o)) as [n|]; [|reflexivity].
    unfold esub_val, sub_val. rewrite (not_absorbed _ G). reflexivity.
  - intros c d Gc Gd. destruct d as [v|]; [|exact Gc]. unfold psub, sub_val, plus_val. rewrite (not_absorbed v Gd).
    destruct (mp_total p && cc_invertible CC) eqn:T; destruct c as [w|]; try apply store_good.
    + apply andb_prop in T. destruct T as [T1 T2]. intros Ea [= E]. cbn in E. apply (Z T1 T2) in E. subst. exact (Gd Ea eq_refl).
    + intros _. discriminate.
Qed.

(* ------------------------------------------------------------------ monoids and groups *)
Lemma icl_map_monoid : monoid CC F_plus -> monoid IM F_plus.
Proof.
  intros Hm. assert (Z : forall v : V, cc_add cc_zero v = v) by apply Hm.
  assert (E0 : forall y, entry (cc_zero : IM) y = None) by reflexivity.
  split; [reflexivity|]. split; [|split]; intros; cbn [combine]; apply entry_ext; intros y; rewrite ?(fun a b => add_entry a b Z), ?E0.
  - apply (m_neutral CC Hco p Hm). apply entry_good.
  - reflexivity.
  - apply (m_assoc CC Hco p Hm); apply entry_good.
Qed.
Lemma icl_map_cmonoid : cmonoid CC F_plus -> cmonoid IM F_plus.
Proof.
  intros Hm. pose proof Hm as (F & Z & Cm & As). assert (Zv : forall v : V, cc_add cc_zero v = v) by exact Z.
  assert (Mo : monoid CC F_plus). { split; [exact F|]. split; [exact Z|]. split; [|exact As]. intros v. rewrite Cm. apply Z. }
  pose proof (icl_map_monoid Mo) as (F' & Z' & N' & As'). split; [exact F'|]. split; [exact Z'|]. split; [|exact As'].
  intros v w. cbn [combine]. apply entry_ext. intros y. rewrite !(fun a b => add_entry a b Zv). apply (padd_comm CC Hco p _ _ Hm); apply entry_good.
Qed.
Lemma icl_map_free : absorbs = true -> cmonoid CC F_plus -> no_cancellation CC F_plus -> no_cancellation IM F_plus.
Proof.
  intros Ea Hm Nc v w. pose proof Hm as (F & Z & Cm & As). cbn [combine]. intros H.
  assert (K : forall y, entry v y = None /\ entry w y = None).
  { intros y. assert (E : padd CC p (entry v y) (entry w y) = None) by (rewrite <- (add_entry v w Z), H; reflexivity).
    pose proof (entry_good v y) as Gv. pose proof (entry_good w y) as Gw. unfold padd, add_val, plus_val in E. destruct (entry w y) as [c|]; [|tauto].
    rewrite (not_absorbed c Gw) in E. destruct (entry v y) as [d|]; [|discriminate]. unfold store in E. destruct (absorbed CC p _) eqn:A; [|discriminate].
    apply andb_prop in A. destruct A as [_ A]. apply Hco in A. apply Nc in A. destruct A as [-> _]. exfalso. exact (Gv Ea eq_refl). }
  split; apply entry_ext; intros y; rewrite ?(proj1 (K y)), ?(proj2 (K y)); reflexivity.
Qed.
Lemma icl_map_group : absorbs = true -> total = true -> cc_invertible CC = true -> cmonoid CC F_plus -> cgroup CC F_plus -> cgroup IM F_plus.
Proof.
  intros Ea Et Ei Hm Hg. pose proof Hm as (F & Z & Cm & As). pose proof Hg as (I1 & I2 & I3).
  assert (K : total = true -> cc_invertible CC = true -> forall v : V, cc_sub cc_zero v = cc_zero -> v = cc_zero).
  { intros _ _ v H. pose proof (I2 v cc_zero) as Q. pose proof (Z v) as Zv. cbn [combine inverse] in Q, Zv. rewrite H, Zv in Q. exact Q. }
  split; [|split; [|reflexivity]]; intros v w; cbn [combine inverse]; apply entry_ext; intros y.
  - rewrite (sub_entry _ _ K), (add_entry _ _ Z). apply (padd_psub CC Hco p Hm Hg Ea Et Ei); apply entry_good.
  - rewrite (add_entry _ _ Z), (sub_entry _ _ K). apply (psub_padd CC Hco p Hm Hg Ea Et Ei); apply entry_good.
Qed.
Lemma icl_map_proper : cmonoid CC F_plus -> forall s a t, t = false \/ cc_invertible CC = false \/ (absorbs = true /\ total = true /\ cgroup CC F_plus) ->
  proper IM (MPar s a t F_plus F_inter_section).
Proof.
  intros Hm s a t H. pose proof (icl_map_cmonoid Hm) as (F & Z & _ & _). unfold proper, neutral_ok, first_ok. split; [|split; [|split]].
  - exact Z.
  - intros v E. exact E.
  - cbn [mp_total mp_combine cc_invertible icl_map]. intros E v Ev. apply andb_prop in E. destruct E as [-> Ei].
    destruct H as [H|[H|(Ea & Et & Hg)]]; [discriminate|congruence|].
    pose proof (icl_map_group Ea Et Ei Hm Hg) as (I1 & I2 & I3). pose proof (I2 v cc_zero) as Q. rewrite I3 in Ev. rewrite Ev, Z in Q. exact Q.
  - intros v. unfold section. destruct (cc_set_sem IM); intros E; exact E.
Qed.
End Nest.

Section NestSet.
Context (Y : dom) (HT : strict_total Y) {U : Type} (CC : codomain) (has : CC -> U -> bool) (HS : set_type CC has).
Notation V := (C CC).
Notation Hco := (st_eq CC has HS).
Notation p := (icl_par true false).
Notation IM := (icl_map Y CC true false).
Notation entry := (entry Y CC true).
Notation ohas := (ohas CC has).
Notation good_at := (good_at CC p).
Lemma has_entry (m : IM) yu : map_has Y CC has true false m yu = ohas (entry m (fst yu)) (snd yu).
Proof. reflexivity. Qed.
Lemma good_ext (o o' : option V) : good_at o -> good_at o' -> (forall u, ohas o u = ohas o' u) -> o = o'.
Proof.
  intros G G' H. destruct o as [v|], o' as [w|]; [|exfalso|exfalso|reflexivity].
  - f_equal. apply (st_ext CC has HS). exact H.
  - apply (G eq_refl). f_equal. apply (st_ext CC has HS). intros u. rewrite (st_zero CC has HS). exact (H u).
  - apply (G' eq_refl). f_equal. apply (st_ext CC has HS). intros u. rewrite (st_zero CC has HS). symmetry. exact (H u).
Qed.
Lemma zero_add (v : V) : cc_add cc_zero v = v. Proof. exact (add_zero CC has HS v). Qed.
Lemma and_entry (m o : IM) y : entry (cc_and m o) y = match entry o y with Some v => and_plain CC p v (entry m y) | None => None end.
Proof.
  apply (op_entry Y HT CC Hco true false (em_and_map Y (mt CC p)) (fun c d => match d with Some v => and_plain CC p v c | None => None end)).
  - unfold em_and_map. cbn [mt_total mt mp_total icl_par].
    destruct (isec_map_upd Y HT CC p [] (entries Y CC true m) (entries Y CC true o) eq_refl ltac:(constructor) (entries_sorted Y HT CC Hco true false m) (entries_nodup Y HT CC Hco true false o)) as (l & E & S & Q).
    exists l. split; [exact E|]. split; [exact S|]. intros z. rewrite Q. pose proof (entry_good Y HT CC Hco true false m z) as Gm. pose proof (entry_good Y HT CC Hco true false o z) as Go.
    unfold NestSpec.entry, eat in *. destruct (find _ (entries Y CC true o)) as [n|]; [|reflexivity]. destruct (find _ (entries Y CC true m)) as [n'|]; [|reflexivity].
    cbn [find]. unfold and_plain, add_val, plus_val. rewrite (not_absorbed CC Hco true false _ Gm), (not_absorbed CC Hco true false _ Go). reflexivity.
  - intros c d Gc Gd. destruct d as [v|]; [|intros _; discriminate]. unfold and_plain. rewrite (not_absorbed CC Hco true false v Gd). destruct c; [apply (store_good CC Hco true false)|intros _; discriminate].
Qed.
Lemma xor_entry (m o : IM) y : entry (cc_xor m o) y = match entry o y with Some v => eflip_val CC p v (entry m y) | None => entry m y end.
Proof.
  apply (op_entry Y HT CC Hco true false (em_flip_map Y (mt CC p)) (fun c d => match d with Some v => eflip_val CC p v c | None => c end)).
  - destruct (flip_map_upd Y HT CC Hco p (entries Y CC true m) (entries Y CC true o) eq_refl (entries_sorted Y HT CC Hco true false m) (entries_nodup Y HT CC Hco true false o)) as (l & E & S & Q).
    exists l. split; [exact E|]. split; [exact S|]. exact Q.
  - intros c d Gc Gd. destruct d as [v|]; [|exact Gc]. unfold eflip_val. rewrite (not_absorbed CC Hco true false v Gd). destruct c; apply (store_good CC Hco true false).
Qed.
Lemma icl_map_set_type : set_type IM (map_has Y CC has true false).
Proof.
  assert (NI : false = true -> cc_invertible CC = true -> forall v : V, cc_sub cc_zero v = cc_zero -> v = cc_zero) by discriminate.
  split.
  - exact (st_sem CC has HS).
  - apply (icl_map_ok Y HT CC Hco).
  - intros v w H. apply (entry_ext Y HT CC Hco). intros y. apply good_ext; try apply (entry_good Y HT CC Hco). intros u. exact (H (y, u)).
  - reflexivity.
  - intros v w u. rewrite !has_entry, (add_entry Y HT CC Hco _ _ _ _ zero_add). unfold padd. destruct (entry w (fst u)) as [c|]; [|cbn; rewrite Bool.orb_false_r; reflexivity].
    apply (add_has CC has HS MJoin true).
  - intros v w u. rewrite !has_entry, (sub_entry Y HT CC Hco _ _ _ _ NI). unfold psub. destruct (entry w (fst u)) as [c|]; [|cbn; rewrite Bool.andb_true_r; reflexivity].
    apply (sub_has CC has HS MJoin true).
  - intros v w u. rewrite !has_entry, and_entry. pose proof (entry_good Y HT CC Hco true false w (fst u)) as G.
    destruct (entry w (fst u)) as [c|]; [|cbn; rewrite Bool.andb_false_r; reflexivity].
    apply (and_has CC has HS MJoin true). exact (not_absorbed CC Hco true false c G).
  - intros v w u. rewrite !has_entry, xor_entry. pose proof (entry_good Y HT CC Hco true false w (fst u)) as G.
    destruct (entry w (fst u)) as [c|]; [|cbn; rewrite Bool.xorb_false_r; reflexivity]. unfold eflip_val.
    destruct (entry v (fst u)) as [d|].
    + assert (Sx : section CC p = F_inter_section) by exact (coll_section CC has HS MJoin true).
      rewrite (not_absorbed CC Hco true false c G), (store_has CC has HS MJoin true), (st_sem CC has HS), Sx. cbn.
      rewrite (st_sem CC has HS). cbn. apply (st_xor CC has HS).
    + rewrite (store_has CC has HS MJoin true). cbn. destruct (has c (snd u)); reflexivity.
Qed.
End NestSet.
