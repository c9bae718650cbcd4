(** Interval containers as associated values, C91 (proofs). *)
From Verif Require Import NestISpec SetThms MapReach MapThms MapThms2 MapThms3 MapThms4 QuantThms CollThms NestThms ElemFacts IntervalProps.
From Verif Require Import MapModel.
From Coq Require Import Sorted Eqdep_dec.
From Coq Require Bool.

Lemma next_inj (Y : dom) (HD : discrete_ok Y) (HT : strict_total Y) u v m n : @ltb Y u m = true -> ltb v n = true -> next u = next v -> u = v.
Proof.
  intros Hu Hv E. destruct HD as [Nx _]. destruct HT as (_ & _ & To). destruct (To u v) as [Q|[Q|Q]]; [|exact Q|].
  - destruct (Nx _ _ Q) as [_ A], (Nx _ _ Hv) as [B _]. rewrite E, B in A. discriminate.
  - destruct (Nx _ _ Q) as [_ A], (Nx _ _ Hu) as [B _]. rewrite <- E, B in A. discriminate.
Qed.
Lemma prior_inj (Y : dom) (HD : discrete_ok Y) (HT : strict_total Y) u v m n : @ltb Y m u = true -> ltb n v = true -> prior u = prior v -> u = v.
Proof.
  intros Hu Hv E. destruct HD as [_ Pr]. destruct HT as (_ & _ & To). destruct (To u v) as [Q|[Q|Q]]; [|exact Q|].
  - destruct (Pr _ _ Q) as [_ A], (Pr _ _ Hu) as [B _]. rewrite <- E, B in A. discriminate.
  - destruct (Pr _ _ Q) as [_ A], (Pr _ _ Hv) as [B _]. rewrite E, B in A. discriminate.
Qed.
Section Norm.
Context (Y : dom) (k : kind) (HX : dom_ok Y k).
Notation I := (itv (D Y)).
Notation mem := (mem Y k).
Notation norm := (norm Y k).
Notation HT := (proj1 HX).
Lemma norm_mem a x : (exists x, mem a x) -> (mem (norm a) x <-> mem a x).
Proof.
  intros Ne. unfold NestISpec.norm. destruct k; try reflexivity.
  assert (Hd : disc Y = true) by apply HX.
  destruct (first_spec Y DD HX a) as [F1 F2]; [unfold has_first; rewrite ?Hd; reflexivity|exact Ne|].
  destruct (last_spec Y DD HX a) as [L1 L2]; [unfold has_last; rewrite ?Hd; reflexivity|exact Ne|].
  split.
  - intros [H1 H2]. cbn in H1, H2. unfold Spec.mem in *. destruct F1 as [F1 _], L1 as [_ L1]. destruct HT as (Ir & Tr & To). unfold le, lt in *.
    assert (T1 : forall u v w : D Y, ltb v u = false -> ltb w v = false -> ltb w u = false).
    { intros u v w A B. destruct (ltb w u) eqn:E; [|reflexivity]. destruct (ltb u v) eqn:E'; [rewrite (Tr _ _ _ E E') in B; discriminate|].
      assert (u = v) by (destruct (To u v) as [Q|[Q|Q]]; [congruence|exact Q|congruence]). congruence. }
    assert (T2 : forall u v w : D Y, ltb u v = true -> ltb w v = false -> ltb u w = true).
    { intros u v w A B. destruct (To u w) as [Q|[Q|Q]]; [exact Q|subst; congruence|]. rewrite (Tr _ _ _ Q A) in B. discriminate. }
    assert (T3 : forall u v w : D Y, ltb v u = false -> ltb v w = true -> ltb u w = true).
    { intros u v w A B. destruct (To u w) as [Q|[Q|Q]]; [exact Q|subst; congruence|]. rewrite (Tr _ _ _ B Q) in A. discriminate. }
    split; [destruct (bl (bd a))|destruct (br (bd a))]; eauto.
  - intros Hx. split; cbn; [apply F2|apply L2]; exact Hx.
Qed.
Lemma norm_eq a b : (exists x, mem a x) -> (exists x, mem b x) -> itv_eqb Y k a b = true -> norm a = norm b.
Proof.
  intros Na Nb. unfold itv_eqb. rewrite (proj2 (is_empty_false Y k HX a) Na), (proj2 (is_empty_false Y k HX b) Nb). cbn [andb orb].
  unfold lower_equal, upper_equal, NestISpec.norm. intros E. apply andb_prop in E. destruct E as [E1 E2].
  destruct k eqn:Ek.
  4: { unfold first, last, lower, upper in E1, E2. apply (ElemFacts.eqb_eq Y HT) in E1, E2. destruct Na as (m & A1 & A2), Nb as (n & B1 & B2). cbn in *.
       assert (Hd : disc Y = true) by apply HX. unfold construct.
       rewrite (next_inj Y (proj1 (proj2 HX) Hd) HT (lo a) (lo b) m n A1 B1 E1), (prior_inj Y (proj1 (proj2 HX) Hd) HT (up a) (up b) m n A2 B2 E2). reflexivity. }
  1,2,3: unfold first, last, lower, upper in E1, E2; apply (ElemFacts.eqb_eq Y HT) in E1, E2; unfold construct; congruence.
  - destruct (proj1 (ElemFacts.eqb_eq Y HT _ _) E1). destruct (proj1 (ElemFacts.eqb_eq Y HT _ _) E2). reflexivity.
  - apply andb_prop in E1, E2. destruct E1 as [B1 E1], E2 as [B2 E2]. apply (ElemFacts.eqb_eq Y HT) in E1, E2. unfold lower, upper in *.
    destruct a as [l u [b1 b2]], b as [l' u' [b1' b2']]. cbn in *. subst. f_equal.
    unfold b_eqb in *. cbn in *. rewrite !Bool.andb_true_iff, !Bool.eqb_true_iff in *. f_equal; tauto.
Qed.
Lemma raw_eqb_ok (a b : I) : raw_eqb Y a b = true <-> a = b.
Proof.
  unfold raw_eqb. destruct a as [l u [c d]], b as [l' u' [c' d']]. cbn. unfold b_eqb. cbn.
  rewrite !Bool.andb_true_iff, !(ElemFacts.eqb_eq Y HT), !Bool.eqb_true_iff. split; [intros [[-> ->] [-> ->]]; reflexivity|]. intros [= -> -> -> ->]. auto.
Qed.
End Norm.

(* ------------------------------------------------------------------ interval_set *)
Section ISet.
Context (Y : dom) (k : kind) (HX : dom_ok Y k).
Notation I := (itv (D Y)).
Notation sset := (tree (D Y) unit).
Notation mem := (mem Y k).
Notation cmem := (cmem Y k).
Notation reach := (reach Y k Joining).
Lemma raws_eqb_ok (l r : list I) : raws_eqb Y l r = true <-> l = r.
Proof.
  revert r. induction l as [|a l IH]; intros [|b r]; cbn; try (split; [discriminate|discriminate]); [tauto|].
  rewrite Bool.andb_true_iff, (raw_eqb_ok Y k HX), IH. split; [intros [-> ->]; reflexivity|intros [= -> ->]; auto].
Qed.
Lemma build_reach l : forall t : sset, reach t -> exists u, foldM (fun t a => r <- s_add Y k Joining t a ;; Ok (fst r)) t l = Ok u /\ reach u /\
  forall x, cmem u x <-> cmem t x \/ exists a, In a l /\ mem a x.
Proof.
  induction l as [|a l IH]; intros t Ht.
  - exists t. split; [reflexivity|]. split; [exact Ht|]. intros x. split; [auto|]. intros [H|(a & [] & _)]; exact H.
  - destruct (thm_add Y k HX Joining t a Ht) as (t' & it & E & Q). cbn [foldM]. rewrite E. cbn [bind fst].
    destruct (IH t') as (u & Eu & Hu & Qu); [eapply R_add; eassumption|]. exists u. split; [exact Eu|]. split; [exact Hu|].
    intros x. rewrite Qu, Q. split.
    + intros [[H|H]|(b & Hb & H)]; [auto|right; exists a; split; [left; reflexivity|exact H]|right; exists b; split; [right; exact Hb|exact H]].
    + intros [H|(b & [->|Hb] & H)]; [auto|auto|right; exists b; auto].
Qed.
Lemma build_ok l : exists t, iset_build Y k l = Ok t /\ reach t /\ forall x, cmem t x <-> exists a, In a l /\ mem a x.
Proof.
  destruct (build_reach l t_empty (R_clear Y k Joining)) as (t & E & H & Q). exists t. split; [exact E|]. split; [exact H|].
  intros x. rewrite Q. split; [|auto]. intros [(a & [] & _)|H']; exact H'.
Qed.
Lemma keys_ne (t : sset) a : reach t -> In a (keys Y t) -> exists x, mem a x.
Proof. intros Ht. pose proof (inv_ascending Y k HX t (reach_inv Y k HX _ t Ht)) as [A _]. apply A. Qed.
Lemma keys_norm (t u : sset) : reach t -> reach u -> s_eqb Y k t u = true -> iset_keys Y k t = iset_keys Y k u.
Proof.
  intros Ht Hu. unfold s_eqb, iset_keys. pose proof (fun a => keys_ne t a Ht) as Nt. pose proof (fun a => keys_ne u a Hu) as Nu.
  revert Nt Nu. generalize (keys Y t) as l, (keys Y u) as r. induction l as [|a l IH]; intros [|b r] Nt Nu; cbn; try discriminate; [reflexivity|].
  intros E. apply andb_prop in E. destruct E as [E1 E2]. f_equal.
  - apply (norm_eq Y k HX); [apply Nt; left; reflexivity|apply Nu; left; reflexivity|exact E1].
  - apply IH; [intros; apply Nt; right; assumption|intros; apply Nu; right; assumption|exact E2].
Qed.
Lemma in_norm (t : sset) x : reach t -> ((exists a, In a (iset_keys Y k t) /\ mem a x) <-> cmem t x).
Proof.
  intros Ht. unfold iset_keys, SetSpec.cmem. split.
  - intros (a & Ha & Hx). apply in_map_iff in Ha. destruct Ha as (b & <- & Hb). exists b. split; [exact Hb|]. exact (proj1 (norm_mem Y k HX b x (keys_ne t b Ht Hb)) Hx).
  - intros (b & Hb & Hx). exists (norm Y k b). split; [apply in_map; exact Hb|]. exact (proj2 (norm_mem Y k HX b x (keys_ne t b Ht Hb)) Hx).
Qed.
Lemma keys_ok (t : sset) : reach t -> iset_ok Y k (iset_keys Y k t) = true.
Proof.
  intros Ht. unfold iset_ok. destruct (build_ok (iset_keys Y k t)) as (u & E & Hu & Q). rewrite E. apply raws_eqb_ok. apply (keys_norm u t Hu Ht).
  apply (thm_canonical Y k HX u t Hu Ht). intros x. rewrite Q. apply (in_norm t x Ht).
Qed.
Lemma tree_ok (s : isett Y k) : reach (iset_tree Y k s) /\ iset_keys Y k (iset_tree Y k s) = iset_itvs Y k s.
Proof.
  unfold iset_tree, iset_itvs. destruct s as [l Hl]. cbn [proj1_sig]. destruct (build_ok l) as (t & E & Ht & _). rewrite E. split; [exact Ht|].
  unfold iset_ok in Hl. rewrite E in Hl. apply raws_eqb_ok. exact Hl.
Qed.
Lemma has_tree (s : C (iset Y k)) x : iset_has Y k s x = true <-> cmem (iset_tree Y k s) x.
Proof.
  destruct (tree_ok s) as [Ht E]. rewrite <- (in_norm _ x Ht), E. unfold iset_has. rewrite existsb_exists. setoid_rewrite (memb_mem Y k). reflexivity.
Qed.
Lemma iset_eq (s o : isett Y k) : iset_itvs Y k s = iset_itvs Y k o -> s = o.
Proof. destruct s as [l Hl], o as [r Hr]. cbn. intros ->. f_equal. apply UIP_dec. apply Bool.bool_dec. Qed.
Lemma iset_ext (s o : C (iset Y k)) : (forall x, iset_has Y k s x = iset_has Y k o x) -> s = o.
Proof.
  intros H. apply iset_eq. destruct (tree_ok s) as [Hs Es], (tree_ok o) as [Ho Eo]. rewrite <- Es, <- Eo. apply (keys_norm _ _ Hs Ho).
  apply (thm_canonical Y k HX _ _ Hs Ho). intros x. rewrite <- !has_tree, H. reflexivity.
Qed.
Lemma to_iset_has (t : sset) x : reach t -> (iset_has Y k (to_iset Y k (Ok t)) x = true <-> cmem t x).
Proof.
  intros Ht. unfold to_iset. destruct (Bool.bool_dec _ _) as [e|n]; [|destruct (n (keys_ok t Ht))].
  unfold iset_has. cbn [iset_itvs proj1_sig]. rewrite existsb_exists. setoid_rewrite (memb_mem Y k). apply (in_norm t x Ht).
Qed.
Lemma op_has (f : sset -> sset -> res sset) (g : Prop -> Prop -> Prop) (h : bool -> bool -> bool) (s o : C (iset Y k)) :
  (forall t u, reach t -> reach u -> exists r, f t u = Ok r /\ reach r /\ forall x, cmem r x <-> g (cmem t x) (cmem u x)) ->
  (forall b c (P Q : Prop), (b = true <-> P) -> (c = true <-> Q) -> (h b c = true <-> g P Q)) ->
  forall x, iset_has Y k (to_iset Y k (f (iset_tree Y k s) (iset_tree Y k o))) x = h (iset_has Y k s x) (iset_has Y k o x).
Proof.
  intros F G x. destruct (tree_ok s) as [Hs _], (tree_ok o) as [Ho _]. destruct (F _ _ Hs Ho) as (r & E & Hr & Q). rewrite E.
  pose proof (to_iset_has r x Hr) as A. rewrite Q in A. pose proof (G _ _ _ _ (has_tree s x) (has_tree o x)) as B.
  apply Bool.eq_true_iff_eq. rewrite A, B. reflexivity.
Qed.
Lemma iset_set_type : set_type (iset Y k) (iset_has Y k).
Proof.
  assert (B : forall b P, (b = true <-> P) -> (b = false <-> ~ P)) by (intros [|]; intuition congruence).
  split.
  - reflexivity.
  - intros s o. cbn. destruct (tree_ok s) as [Hs Es], (tree_ok o) as [Ho Eo]. split; [|intros ->; apply (thm_canonical Y k HX _ _ Ho Ho); reflexivity].
    intros E. apply iset_eq. rewrite <- Es, <- Eo. apply (keys_norm _ _ Hs Ho E).
  - exact iset_ext.
  - reflexivity.
  - intros s o. apply (op_has _ or orb).
    + intros t u Ht Hu. destruct (thm_add_set Y k HX Joining Joining t u Ht Hu) as (r & E & Q). exists r. split; [exact E|]. split; [exact (R_add_set Y k Joining Joining t u r Ht Hu E)|exact Q].
    + intros [|] [|] P Q A C; cbn; intuition congruence.
  - intros s o. apply (op_has _ (fun P Q => P /\ ~ Q) (fun b c => b && negb c)).
    + intros t u Ht Hu. destruct (thm_subtract_set Y k HX Joining Joining t u Ht Hu) as (r & E & Q). exists r. split; [exact E|]. split; [exact (R_subtract_set Y k Joining Joining t u r Ht Hu E)|exact Q].
    + intros [|] [|] P Q A C; cbn; intuition congruence.
  - intros s o. apply (op_has _ and andb).
    + intros t u Ht Hu. destruct (thm_and_set Y k HX Joining Joining t u Ht Hu) as (r & E & Q). exists r. split; [exact E|]. split; [exact (R_and_set Y k Joining Joining t u r Ht Hu E)|exact Q].
    + intros [|] [|] P Q A C; cbn; intuition congruence.
  - intros s o. apply (op_has _ (fun P Q => (P /\ ~ Q) \/ (~ P /\ Q)) xorb).
    + intros t u Ht Hu. destruct (thm_flip_set Y k HX Joining Joining t u Ht Hu) as (r & E & Q). exists r. split; [exact E|]. split; [exact (R_flip_set Y k Joining Joining t u r Ht Hu E)|exact Q].
    + intros [|] [|] P Q A C; cbn; intuition congruence.
Qed.
End ISet.

(* ------------------------------------------------------------------ interval_map *)
Section IMap.
Context (Y : dom) (k : kind) (HX : dom_ok Y k) (CC : codomain) (Hco : eq_ok CC) (absorbs total : bool).
Notation V := (C CC).
Notation p := (icl_par absorbs total).
Context (P : proper CC p).
Notation I := (itv (D Y)).
Notation imap := (tree (D Y) V).
Notation mem := (mem Y k).
Notation memb := (memb Y k).
Notation at_ := (at_ Y k CC).
Notation mreach := (mreach Y k CC p).
Notation M := (mt CC p).
Notation IM := (icl_imap Y k CC absorbs total).
Notation ival := (ival Y k CC absorbs total).
Notation good_at := (good_at CC p).
Notation imap_tree := (imap_tree Y k CC absorbs total).
Notation imap_list := (imap_list Y k CC absorbs total).
Notation imap_segs := (imap_segs Y k CC).
Notation look l x := (match find (fun s : I * V => memb (fst s) x) l with Some s => Some (snd s) | None => None end).

Lemma segs_same_ok (l r : list (I * V)) : segs_same Y CC l r = true <-> l = r.
Proof.
  revert r. induction l as [|[a v] l IH]; intros [|[b w] r]; cbn; try (split; [discriminate|discriminate]); [tauto|].
  rewrite !Bool.andb_true_iff, (raw_eqb_ok Y k HX), IH, (Hco v w). split; [intros [[-> ->] ->]; reflexivity|intros [= -> -> ->]; auto].
Qed.
Lemma fold_reach l : forall t : imap, mreach t -> exists u, foldM (fun (t : imap) (s : I * V) => m_add Y k M t (fst s) (snd s)) t l = Ok u /\ mreach u.
Proof.
  induction l as [|s l IH]; intros t Ht; [exists t; auto|].
  destruct (thm_madd Y k HX CC Hco p t Ht (fst s) (snd s)) as (t' & E & _). cbn [foldM]. rewrite E. cbn [bind]. apply IH. exact (M_add Y k CC p t _ _ t' Ht E).
Qed.
Lemma imap_build_ok l : exists t, imap_build Y k CC absorbs total l = Ok t /\ mreach t.
Proof. apply fold_reach. constructor. Qed.
Lemma fold_at l : forall t : imap, mreach t -> StronglySorted (fun s s' : I * V => forall x, mem (fst s) x -> ~ mem (fst s') x) l ->
  (forall s, In s l -> good_at (Some (snd s))) -> (forall s x, In s l -> mem (fst s) x -> at_ t x = None) ->
  exists u, foldM (fun (t : imap) (s : I * V) => m_add Y k M t (fst s) (snd s)) t l = Ok u /\ mreach u /\
    forall x, at_ u x = match look l x with Some v => Some v | None => at_ t x end.
Proof.
  induction l as [|s l IH]; intros t Ht Hs Hg Hn.
  - exists t. split; [reflexivity|]. split; [exact Ht|]. reflexivity.
  - destruct (thm_madd Y k HX CC Hco p t Ht (fst s) (snd s)) as (t' & E & Q). cbn [foldM]. rewrite E. cbn [bind]. inversion Hs as [|? ? Hs1 Hs2]; subst.
    rewrite Forall_forall in Hs2.
    destruct (IH t') as (u & Eu & Hu & Qu).
    + exact (M_add Y k CC p t _ _ t' Ht E).
    + exact Hs1.
    + intros s' Hs'. apply Hg. right. exact Hs'.
    + intros s' x Hs' Hx. destruct (Q x) as [_ Q2]. rewrite Q2; [apply (Hn s' x (or_intror Hs') Hx)|]. intros Hx'. exact (Hs2 s' Hs' x Hx' Hx).
    + exists u. split; [exact Eu|]. split; [exact Hu|]. intros x. rewrite Qu. cbn [find]. destruct (Q x) as [Q1 Q2].
      pose proof (memb_mem Y k (fst s) x) as Mb. destruct (memb (fst s) x).
      * assert (Hx : mem (fst s) x) by (apply Mb; reflexivity). rewrite Q1, (Hn s x (or_introl eq_refl) Hx) by exact Hx.
        destruct (find _ l) as [s'|] eqn:Ef.
        -- apply find_some in Ef. destruct Ef as [F1 F2]. apply (memb_mem Y k) in F2. destruct (Hs2 s' F1 x Hx F2).
        -- unfold add_val, plus_val. rewrite (NestThms.not_absorbed CC Hco absorbs total (snd s) (Hg s (or_introl eq_refl))). reflexivity.
      * rewrite Q2; [reflexivity|]. intros H. apply Mb in H. discriminate.
Qed.
Lemma seg_ne (t : imap) a : mreach t -> In a (map fst (segs Y CC t)) -> exists x, mem a x.
Proof.
  intros Ht. pose proof (inv_ascending Y k HX t (mreach_inv Y k HX CC Hco p t Ht)) as [A _]. intros H. apply A. unfold segs in H. rewrite map_map in H. exact H.
Qed.
Lemma look_norm (l : list (I * V)) x : (forall a, In a (map fst l) -> exists x, mem a x) ->
  look (map (fun s => (norm Y k (fst s), snd s)) l) x = look l x.
Proof.
  induction l as [|s l IH]; intros H; [reflexivity|]. cbn [map find fst snd].
  assert (E : memb (norm Y k (fst s)) x = memb (fst s) x).
  { apply Bool.eq_true_iff_eq. rewrite !(memb_mem Y k). apply (norm_mem Y k HX). apply H. left. reflexivity. }
  rewrite E. destruct (memb (fst s) x); [reflexivity|]. apply IH. intros a Ha. apply H. right. exact Ha.
Qed.
Lemma segs_look (t : imap) x : mreach t -> look (imap_segs t) x = at_ t x.
Proof. intros Ht. unfold NestISpec.imap_segs. rewrite look_norm; [reflexivity|]. intros a. apply (seg_ne t a Ht). Qed.
Lemma nodes_norm (l r : list (Tree.node (D Y) V)) : (forall n, In n l -> exists x, mem (nkey n) x) -> (forall n, In n r -> exists x, mem (nkey n) x) ->
  segs_eqb Y k M l r = true -> map (fun n => (norm Y k (nkey n), nval n)) l = map (fun n => (norm Y k (nkey n), nval n)) r.
Proof.
  revert r. induction l as [|a l IH]; intros [|b r] Nt Nu; cbn; try discriminate; [reflexivity|].
  intros E. apply andb_prop in E. destruct E as [E E2]. apply andb_prop in E. destruct E as [E1 Ev]. f_equal.
  - f_equal; [|apply Hco; exact Ev]. apply (norm_eq Y k HX); [apply Nt; left; reflexivity|apply Nu; left; reflexivity|exact E1].
  - apply IH; [intros; apply Nt; right; assumption|intros; apply Nu; right; assumption|exact E2].
Qed.
Lemma segs_norm (t u : imap) : mreach t -> mreach u -> m_eqb Y k M t u = true -> imap_segs t = imap_segs u.
Proof.
  intros Ht Hu E. unfold NestISpec.imap_segs, segs. rewrite !map_map. cbn [fst snd].
  apply nodes_norm; [intros n Hn; apply (seg_ne t _ Ht)|intros n Hn; apply (seg_ne u _ Hu)|exact E]; unfold segs; rewrite map_map; cbn [fst]; apply (in_map nkey); exact Hn.
Qed.
Lemma segs_ok (t : imap) : mreach t -> imap_ok Y k CC absorbs total (imap_segs t) = true.
Proof.
  intros Ht. pose proof (inv_ascending Y k HX t (mreach_inv Y k HX CC Hco p t Ht)) as [A1 A2].
  assert (A : ascending Y k (map fst (segs Y CC t))) by (unfold segs; rewrite map_map; split; assumption). clear A1 A2.
  destruct (fold_at (imap_segs t) t_empty (M_clear Y k CC p)) as (u & E & Hu & Q).
  - unfold NestISpec.imap_segs. destruct A as [A1 A2]. revert A1 A2. generalize (segs Y CC t) as l. induction l as [|s l IH]; intros A1 A2; [constructor|].
    cbn [map] in *. inversion A2 as [|? ? B1 B2]; subst. constructor; [apply IH; [intros a Ha; apply A1; right; exact Ha|exact B1]|].
    rewrite Forall_forall in *. intros s' Hs' x Hx Hx'. apply in_map_iff in Hs'. destruct Hs' as (s2 & <- & Hs2). cbn [fst] in *.
    assert (In2 : In (fst s2) (map fst l)) by (apply in_map; exact Hs2).
    pose proof (proj1 (norm_mem Y k HX (fst s) x (A1 _ (or_introl eq_refl))) Hx) as M1.
    pose proof (proj1 (norm_mem Y k HX (fst s2) x (A1 _ (or_intror In2))) Hx') as M2.
    specialize (B2 _ In2 x x M1 M2). unfold lt in B2. rewrite (proj1 (proj1 HX) x) in B2. discriminate.
  - intros s Hs. unfold NestISpec.imap_segs in Hs. apply in_map_iff in Hs. destruct Hs as (s1 & <- & Hs1). cbn [snd].
    destruct (seg_ne t (fst s1) Ht (in_map fst _ _ Hs1)) as [x Hx].
    assert (E : at_ t x = Some (snd s1)). { apply (at_some Y k HX CC t x (snd s1) (mreach_inv Y k HX CC Hco p t Ht)). exists (fst s1). split; [|exact Hx]. rewrite <- surjective_pairing. exact Hs1. }
    rewrite <- E. apply (good_at_reach Y k HX CC Hco p t x P Ht).
  - reflexivity.
  - unfold imap_ok, imap_build. rewrite E. apply segs_same_ok. apply (segs_norm u t Hu Ht). apply (thm_meqb_joined Y k HX CC Hco p p u t eq_refl eq_refl Hu Ht).
    intros x. rewrite Q, (segs_look t x Ht). destruct (at_ t x); reflexivity.
Qed.
Lemma imap_tree_ok (m : IM) : mreach (imap_tree m) /\ imap_segs (imap_tree m) = imap_list m.
Proof.
  unfold NestISpec.imap_tree, NestISpec.imap_list. destruct m as [l Hl]. cbn [proj1_sig]. destruct (imap_build_ok l) as (t & E & Ht). rewrite E. split; [exact Ht|].
  unfold imap_ok in Hl. rewrite E in Hl. apply segs_same_ok. exact Hl.
Qed.
Lemma ival_tree (m : IM) y : ival m y = at_ (imap_tree m) y.
Proof. destruct (imap_tree_ok m) as [H E]. rewrite <- (segs_look _ y H), E. reflexivity. Qed.
Lemma imapt_eq (m o : IM) : imap_list m = imap_list o -> m = o.
Proof. destruct m as [l Hl], o as [r Hr]. cbn. intros ->. f_equal. apply UIP_dec. apply Bool.bool_dec. Qed.
Lemma ival_ext (m o : IM) : (forall y, ival m y = ival o y) -> m = o.
Proof.
  intros H. apply imapt_eq. destruct (imap_tree_ok m) as [Hm Em], (imap_tree_ok o) as [Ho Eo]. rewrite <- Em, <- Eo. apply (segs_norm _ _ Hm Ho).
  apply (thm_meqb_joined Y k HX CC Hco p p _ _ eq_refl eq_refl Hm Ho). intros x. rewrite <- !ival_tree. apply H.
Qed.
Lemma ival_good (m : IM) y : good_at (ival m y).
Proof. rewrite ival_tree. apply (good_at_reach Y k HX CC Hco p _ y P). apply imap_tree_ok. Qed.
Lemma to_imap_at (t : imap) y : mreach t -> ival (to_imap Y k CC absorbs total (Ok t)) y = at_ t y.
Proof.
  intros Ht. unfold to_imap. destruct (Bool.bool_dec _ _) as [e|n]; [|destruct (n (segs_ok t Ht))]. unfold NestISpec.ival. cbn [NestISpec.imap_list proj1_sig]. apply (segs_look t y Ht).
Qed.
Lemma iop (f : imap -> imap -> res imap) (g : option V -> option V -> option V) (m o : IM) :
  (forall t u, mreach t -> mreach u -> exists r, f t u = Ok r /\ mreach r /\ forall x, at_ r x = g (at_ t x) (at_ u x)) ->
  forall y, ival (to_imap Y k CC absorbs total (f (imap_tree m) (imap_tree o))) y = g (ival m y) (ival o y).
Proof.
  intros F y. destruct (imap_tree_ok m) as [Hm _], (imap_tree_ok o) as [Ho _]. destruct (F _ _ Hm Ho) as (r & E & Hr & Q).
  rewrite E, (to_imap_at r y Hr), Q, !ival_tree. reflexivity.
Qed.
Lemma icl_imap_ok : eq_ok IM.
Proof.
  intros m o. cbn. destruct (imap_tree_ok m) as [Hm Em], (imap_tree_ok o) as [Ho Eo]. rewrite (thm_meqb_joined Y k HX CC Hco p p _ _ eq_refl eq_refl Hm Ho).
  split; [intros H; apply ival_ext; intros y; rewrite !ival_tree; apply H|intros ->; reflexivity].
Qed.
Lemma iadd_entry (m o : IM) y : ival (cc_add m o) y = padd CC p (ival m y) (ival o y).
Proof.
  apply (iop (m_add_map Y k M) (padd CC p)). intros t u Ht Hu. destruct (thm_madd_map Y k HX CC Hco p p t u Ht Hu P) as (r & E & Q).
  exists r. split; [exact E|]. split; [exact (M_add_map Y k CC p p t u r Ht Hu E)|]. exact Q.
Qed.
Lemma isub_entry (m o : IM) y : ival (cc_sub m o) y = psub CC p (ival m y) (ival o y).
Proof.
  apply (iop (m_subtract_map Y k M) (psub CC p)). intros t u Ht Hu. destruct (thm_msub_map Y k HX CC Hco p p t u Ht Hu) as (r & E & Q).
  exists r. split; [exact E|]. split; [exact (M_subtract_map Y k CC p p t u r Ht Hu E)|]. exact Q.
Qed.
Lemma iand_entry (m o : IM) y : total = false -> ival (cc_and m o) y = match ival o y with Some v => and_plain CC p v (ival m y) | None => None end.
Proof.
  intros Et. apply (iop (m_and_map Y k M) (fun c d => match d with Some v => and_plain CC p v c | None => None end)). intros t u Ht Hu.
  destruct (thm_mand_map Y k HX CC Hco p p t u Ht Hu Et) as (r & E & Q).
  exists r. split; [exact E|]. split; [exact (M_isec_map Y k CC p p t_empty t u r (M_clear Y k CC p) Ht Hu E)|]. intros x. rewrite Q.
  destruct (at_ u x); [|reflexivity]. apply (and_plain_eq Y k HX CC Hco p t x); [discriminate|exact P|exact Ht].
Qed.
Lemma ixor_entry (m o : IM) y : total = false -> ival (cc_xor m o) y = match ival o y with Some v => flip_plain CC p v (ival m y) | None => ival m y end.
Proof.
  intros Et. apply (iop (m_flip_map Y k M) (fun c d => match d with Some v => flip_plain CC p v c | None => c end)). intros t u Ht Hu.
  destruct (thm_mflip_map Y k HX CC Hco p p t u Ht Hu Et P) as (r & E & Q).
  exists r. split; [exact E|]. split; [exact (M_flip_map Y k CC p p t u r Ht Hu E)|]. intros x. rewrite Q.
  destruct (at_ u x) as [v|]; [|reflexivity]. apply (flip_plain_eq CC p v); discriminate.
Qed.
(* the structure of the values carries over *)
Lemma icl_imap_monoid : monoid CC F_plus -> monoid IM F_plus.
Proof.
  intros Hm. split; [reflexivity|]. split; [|split]; intros; cbn [combine]; apply ival_ext; intros y; rewrite ?iadd_entry.
  - apply (m_neutral CC Hco p Hm). apply ival_good.
  - reflexivity.
  - apply (m_assoc CC Hco p Hm); apply ival_good.
Qed.
Lemma icl_imap_cmonoid : cmonoid CC F_plus -> cmonoid IM F_plus.
Proof.
  intros Hm. pose proof Hm as (F & Z & Cm & As).
  assert (Mo : monoid CC F_plus). { split; [exact F|]. split; [exact Z|]. split; [|exact As]. intros v. rewrite Cm. apply Z. }
  pose proof (icl_imap_monoid Mo) as (F' & Z' & N' & As'). split; [exact F'|]. split; [exact Z'|]. split; [|exact As'].
  intros v w. cbn [combine]. apply ival_ext. intros y. rewrite !iadd_entry. apply (padd_comm CC Hco p _ _ Hm); apply ival_good.
Qed.
Lemma icl_imap_free : absorbs = true -> cmonoid CC F_plus -> no_cancellation CC F_plus -> no_cancellation IM F_plus.
Proof.
  intros Ea Hm Nc v w. cbn [combine]. intros H.
  assert (K : forall y, ival v y = None /\ ival w y = None).
  { intros y. assert (E : padd CC p (ival v y) (ival w y) = None) by (rewrite <- iadd_entry, H; reflexivity).
    pose proof (ival_good v y) as Gv. pose proof (ival_good w y) as Gw. unfold padd, add_val, plus_val in E. destruct (ival w y) as [c|]; [|tauto].
    rewrite (NestThms.not_absorbed CC Hco absorbs total c Gw) in E. destruct (ival v y) as [d|]; [|discriminate]. unfold store in E. destruct (absorbed CC p _) eqn:A; [|discriminate].
    apply andb_prop in A. destruct A as [_ A]. apply Hco in A. apply Nc in A. destruct A as [-> _]. exfalso. exact (Gv Ea eq_refl). }
  split; apply ival_ext; intros y; rewrite ?(proj1 (K y)), ?(proj2 (K y)); reflexivity.
Qed.
Lemma icl_imap_group : absorbs = true -> total = true -> cc_invertible CC = true -> cmonoid CC F_plus -> cgroup CC F_plus -> cgroup IM F_plus.
Proof.
  intros Ea Et Ei Hm Hg. split; [|split; [|reflexivity]]; intros v w; cbn [combine inverse]; apply ival_ext; intros y.
  - rewrite isub_entry, iadd_entry. apply (padd_psub CC Hco p Hm Hg Ea Et Ei); apply ival_good.
  - rewrite iadd_entry, isub_entry. apply (psub_padd CC Hco p Hm Hg Ea Et Ei); apply ival_good.
Qed.
Lemma icl_imap_proper : cmonoid CC F_plus -> forall s a t, t = false \/ cc_invertible CC = false \/ (absorbs = true /\ total = true /\ cgroup CC F_plus) ->
  proper IM (MPar s a t F_plus F_inter_section).
Proof.
  intros Hm s a t H. pose proof (icl_imap_cmonoid Hm) as (F & Z & _ & _). unfold proper, neutral_ok, first_ok. split; [|split; [|split]].
  - exact Z.
  - intros v E. exact E.
  - cbn [mp_total mp_combine cc_invertible icl_imap]. intros E v Ev. apply andb_prop in E. destruct E as [-> Ei].
    destruct H as [H|[H|(Ea & Et & Hg)]]; [discriminate|congruence|].
    pose proof (icl_imap_group Ea Et Ei Hm Hg) as (I1 & I2 & I3). pose proof (I2 v cc_zero) as Q. rewrite I3 in Ev. rewrite Ev, Z in Q. exact Q.
  - intros v. unfold section. destruct (cc_set_sem IM); intros E; exact E.
Qed.
End IMap.

Section IMapSet.
Context (Y : dom) (k : kind) (HX : dom_ok Y k) {U : Type} (CC : codomain) (has : CC -> U -> bool) (HS : set_type CC has).
Notation V := (C CC).
Notation Hco := (st_eq CC has HS).
Notation p := (icl_par true false).
Notation IM := (icl_imap Y k CC true false).
Notation ival := (ival Y k CC true false).
Notation ohas := (ohas CC has).
Lemma coll_par : proper CC p.
Proof. exact (CollThms.coll_proper CC has HS MJoin true). Qed.
Lemma has_ival (m : IM) yu : imap_has Y k CC has true false m yu = ohas (ival m (fst yu)) (snd yu).
Proof. reflexivity. Qed.
Lemma icl_imap_set_type : set_type IM (imap_has Y k CC has true false).
Proof.
  pose proof coll_par as P. pose proof (ival_good Y k HX CC Hco true false P) as G. split.
  - exact (st_sem CC has HS).
  - apply (icl_imap_ok Y k HX CC Hco true false).
  - intros v w H. apply (ival_ext Y k HX CC Hco true false). intros y. apply (good_ext CC has HS); [apply G|apply G|]. intros u. exact (H (y, u)).
  - reflexivity.
  - intros v w u. rewrite !has_ival, (iadd_entry Y k HX CC Hco true false P). unfold padd. destruct (ival w (fst u)) as [c|]; [|cbn; rewrite Bool.orb_false_r; reflexivity].
    apply (add_has CC has HS MJoin true).
  - intros v w u. rewrite !has_ival, (isub_entry Y k HX CC Hco true false P). unfold psub. destruct (ival w (fst u)) as [c|]; [|cbn; rewrite Bool.andb_true_r; reflexivity].
    apply (sub_has CC has HS MJoin true).
  - intros v w u. rewrite !has_ival, (iand_entry Y k HX CC Hco true false P v w (fst u) eq_refl). pose proof (G w (fst u)) as Gw.
    destruct (ival w (fst u)) as [c|]; [|cbn; rewrite Bool.andb_false_r; reflexivity].
    apply (and_has CC has HS MJoin true). exact (NestThms.not_absorbed CC Hco true false c Gw).
  - intros v w u. rewrite !has_ival, (ixor_entry Y k HX CC Hco true false P v w (fst u) eq_refl). pose proof (G w (fst u)) as Gw.
    destruct (ival w (fst u)) as [c|]; [|cbn; rewrite Bool.xorb_false_r; reflexivity]. apply (flip_has CC has HS MJoin true).
Qed.
End IMapSet.
