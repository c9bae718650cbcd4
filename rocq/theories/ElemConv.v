(** Conversions between interval containers and element containers. *)
From Verif Require Import ElemSpec ElemFacts ElemOps ElemQuery ElemThms ElemThms2 ElemRefine ElemRefine2.
From Verif Require Import SetProps SetThms SetQuery3 MapReach MapThms MapThms2 MapThms3 MapThms4 ContElems.
From Coq Require Import Sorted.

Section Conv.
Context (X : dom) (k : kind) (HX : dom_ok X k).
Notation K := (D X).
Notation mem := (mem X k).
Notation HT := (total_order X k HX).

Section Atomize.
Context (phi : K -> Z) (sub : K -> K -> Z) (Hphi : integral X phi sub) (Hd : disc X = true) (Hi : incr X = true).

Lemma phi_inj x y : phi x = phi y -> x = y.
Proof.
  intros E. destruct Hphi as (L & _). destruct (proj2 (proj2 HT) x y) as [H|[H|H]]; [|exact H|]; rewrite L in H; apply Z.ltb_lt in H; lia.
Qed.
Lemma phi_le x y : le x y <-> (phi x <= phi y)%Z.
Proof. unfold le. destruct Hphi as (L & _). rewrite L. rewrite Z.ltb_ge. reflexivity. Qed.
Lemma phi_succ x : (exists y, lt x y) -> phi (succ x) = (phi x + 1)%Z.
Proof.
  intros (y & H). unfold succ. rewrite Hi. destruct (proj1 (proj2 HX)) as [N _]; [exact Hd|]. destruct Hphi as (L & _ & C).
  destruct (N x y H) as [H1 _]. unfold lt in H. rewrite L in H, H1. apply Z.ltb_lt in H, H1.
  destruct (C x y (phi x + 1)%Z) as (w & Ew); [lia|]. destruct (N x w) as [_ H2]. { rewrite L. apply Z.ltb_lt. lia. }
  rewrite L in H2. apply Z.ltb_ge in H2. lia.
Qed.
Lemma loop_ok (l : K) : (exists y, lt l y) ->
  forall n x, n = Z.to_nat (phi l + 1 - phi x) -> exists e, enumerates X (fun z => le x z /\ le z l) e /\
    forall A (ins : A -> K -> A) fuel r, (n < fuel)%nat -> atomize_loop X fuel ins r x l = Ok (fold_left ins e r).
Proof.
  intros Hl. induction n as [|n IH]; intros x En.
  - exists []. split.
    { split; [constructor|]. intros z. rewrite !phi_le. split; [intros []|]. intros [H1 H2]. cbn. lia. }
    intros A ins fuel r Hf. destruct fuel as [|fuel]; [lia|]. cbn [atomize_loop fold_left]. unfold raw_le. rewrite Hi. unfold leb.
    destruct Hphi as (L & _). rewrite L. replace (phi l <? phi x)%Z with true by (symmetry; apply Z.ltb_lt; lia). reflexivity.
  - assert (Hx : exists y, lt x y). { destruct Hl as (y & H). exists y. unfold lt in *. destruct Hphi as (L & _). rewrite L in *. apply Z.ltb_lt in H. apply Z.ltb_lt. lia. }
    destruct (IH (succ x)) as (e & [N E] & F). { rewrite (phi_succ x Hx). lia. }
    exists (x :: e). split.
    + split.
      * constructor; [|exact N]. rewrite E, !phi_le, (phi_succ x Hx). lia.
      * intros z. cbn [In]. rewrite E, !phi_le, (phi_succ x Hx). split; [intros [<-|H]; lia|]. intros H.
        destruct (Z.eq_dec (phi x) (phi z)) as [Ez|Ez]; [left; apply phi_inj; exact Ez|right; lia].
    + intros A ins fuel r Hf. destruct fuel as [|fuel]; [lia|]. cbn [atomize_loop fold_left]. unfold raw_le. rewrite Hi. unfold leb.
      pose proof Hphi as (L & _). rewrite L. replace (phi l <? phi x)%Z with false by (symmetry; apply Z.ltb_ge; lia). apply F. lia.
Qed.
Lemma seg_elems a : (exists x, mem a x) -> (exists y, lt (last X k a) y) -> exists e n, enumerates X (mem a) e /\
  forall A (ins : A -> K -> A) fuel r, (n < fuel)%nat -> atomize_loop X fuel ins r (first X k a) (last X k a) = Ok (fold_left ins e r).
Proof.
  intros Hne Hl. assert (Hf : has_first X k = true) by (unfold has_first; rewrite Hd; destruct k; reflexivity).
  assert (Hls : has_last X k = true) by (unfold has_last; rewrite Hd; destruct k; reflexivity).
  destruct (first_spec X k HX a Hf Hne) as [F1 F2]. destruct (last_spec X k HX a Hls Hne) as [L1 L2].
  set (n := Z.to_nat (phi (last X k a) + 1 - phi (first X k a))).
  assert (Cv : forall z, le (first X k a) z /\ le z (last X k a) <-> mem a z).
  { intros z. split; [|intros H; split; [apply F2|apply L2]; exact H]. intros [H1 H2].
    apply (mem_cut X k HX) in F1, L1. apply (mem_cut X k HX). destruct F1 as [F1 _], L1 as [_ L1]. rewrite phi_le in H1, H2.
    split.
    - destruct (Z.eq_dec (phi (first X k a)) (phi z)) as [Ez|Ez]; [apply phi_inj in Ez; subst z; exact F1|].
      assert (Q : lt (first X k a) z). { unfold lt. destruct Hphi as (L & _). rewrite L. apply Z.ltb_lt. lia. } rewrite (lt_pt X) in Q. cord_ X k HX.
    - destruct (Z.eq_dec (phi (last X k a)) (phi z)) as [Ez|Ez]; [apply phi_inj in Ez; rewrite <- Ez; exact L1|].
      assert (Q : lt z (last X k a)). { unfold lt. destruct Hphi as (L & _). rewrite L. apply Z.ltb_lt. lia. } rewrite (lt_pt X) in Q. cord_ X k HX. }
  destruct (loop_ok (last X k a) Hl n (first X k a) eq_refl) as (e & [N E] & F). exists e, n. split; [|exact F]. split; [exact N|]. intros z. rewrite E. apply Cv.
Qed.

Definition tops {V} (l : list (node K V)) : Prop := forall n, In n l -> (exists x, mem (nkey n) x) /\ exists y, lt (last X k (nkey n)) y.

Lemma atomize_set_nodes {V} (l : list (node K V)) : tops l -> forall s, esorted X s -> exists s' N,
  (forall fuel, (N < fuel)%nat -> foldM (fun r n => atomize_loop X fuel (fun r x => es_add X r x) r (first X k (nkey n)) (last X k (nkey n))) s l = Ok s') /\
  esorted X s' /\ forall x, has_elem X s' x <-> has_elem X s x \/ exists n, In n l /\ mem (nkey n) x.
Proof.
  induction l as [|n l IH]; intros T s S.
  - exists s, 0%nat. split; [reflexivity|]. split; [exact S|]. intros x. split; [tauto|]. intros [H|(n & [] & _)]. exact H.
  - destruct (T n (or_introl eq_refl)) as [Hne Hl]. destruct (seg_elems (nkey n) Hne Hl) as (e & N1 & [_ E] & F).
    destruct (each_add X k HX s e S) as [S1 M1]. destruct (IH (fun m Hm => T m (or_intror Hm)) _ S1) as (s' & N2 & G & S2 & M2).
    exists s', (N1 + N2)%nat. split.
    { intros fuel Hf. cbn [foldM]. rewrite (F _ (fun r x => es_add X r x)) by lia. cbn [bind]. apply G. lia. }
    split; [exact S2|]. intros x. rewrite M2, M1, E. split.
    + intros [[H|H]|(m & Hm & H)]; [tauto|right; exists n; cbn; tauto|right; exists m; cbn; tauto].
    + intros [H|(m & [<-|Hm] & H)]; [tauto|tauto|right; eauto].
Qed.

Lemma reach_tops {V} (t : tree K V) : inv k t -> (forall x, cmem X k t x -> exists y, lt x y) -> tops (nodes t).
Proof.
  intros [_ S] H n Hn. pose proof (srt_nes X k _ S) as NS. unfold nes in NS. rewrite Forall_forall in NS.
  assert (Hne : exists x, mem (nkey n) x) by (apply (ne_elem X k HX); apply NS; exact Hn). split; [exact Hne|].
  apply H. exists (nkey n). split; [apply (in_map nkey); exact Hn|]. apply last_spec; [exact HX| |exact Hne]. unfold has_last. rewrite Hd. destruct k; reflexivity.
Qed.
Theorem atomize_set_ok st (t : tree K unit) : reach X k st t -> (forall x, cmem X k t x -> exists y, lt x y) ->
  exists s N, esorted X s /\ sagrees X k t s /\ forall fuel, (N < fuel)%nat -> atomize_set X k fuel [] t = Ok s.
Proof.
  intros R H. pose proof (reach_inv X k HX st t R) as I. destruct (atomize_set_nodes (nodes t) (reach_tops t I H) []) as (s & N & E & S & M); [constructor|].
  exists s, N. split; [exact S|]. split; [|exact E]. intros x. rewrite M, (cmem_emem X k HX). split; [intros H0; right; exact H0|intros [[]|H0]; exact H0].
Qed.

Section Map.
Context (CC : codomain) (Hco : eq_ok CC) (p : mpar).
Notation V := (C CC).
Notation M := (mt CC p).
Notation find_ l x := (find (fun s : itv K * V => memb X k (fst s) x) (map (fun n => (nkey n, nval n)) l)).
Lemma atomize_map_nodes (l : list (node K V)) : tops l -> forall m : list (K * V), esorted X m -> exists m' N,
  (forall fuel, (N < fuel)%nat -> foldM (fun r n => atomize_loop X fuel (fun r x => fst (fst (em_insert X M r x (nval n)))) r (first X k (nkey n)) (last X k (nkey n))) m l = Ok m') /\
  esorted X m' /\ forall x, eat X m' x = match eat X m x with Some w => Some w | None =>
     match find (fun s => memb X k (fst s) x && match store CC p (snd s) with Some _ => true | None => false end) (map (fun n => (nkey n, nval n)) l) with
     | Some s => store CC p (snd s) | None => None end end.
Proof.
  induction l as [|n l IH]; intros T m S.
  - exists m, 0%nat. split; [reflexivity|]. split; [exact S|]. intros x. cbn. destruct (eat X m x); reflexivity.
  - destruct (T n (or_introl eq_refl)) as [Hne Hl]. destruct (seg_elems (nkey n) Hne Hl) as (e & N1 & [Nd E] & F).
    destruct (each_upd X (fun m x => Ok (fst (fst (em_insert X M m x (nval n))))) (fun _ => ins_val CC p (nval n)) e) with (m := m) as (m1 & E1 & S1 & C1); [|exact Nd|exact S|].
    { intros m0 x S0. eexists. split; [reflexivity|]. apply (minsert_upd X HT CC p). exact S0. }
    rewrite each_pure in E1. injection E1 as E1.
    destruct (IH (fun m Hm => T m (or_intror Hm)) m1 S1) as (m' & N2 & G & S2 & M2).
    exists m', (N1 + N2)%nat. split.
    { intros fuel Hf. cbn [foldM]. rewrite (F _ (fun r x => fst (fst (em_insert X M r x (nval n))))) by lia. cbn [bind]. cbn [mt_co mt] in *. rewrite E1. apply G. lia. }
    split; [exact S2|]. intros x. rewrite M2. cbn [map find fst snd]. destruct (C1 x) as [Ca Cb]. specialize (E x). rewrite <- (memb_mem X k) in E.
    cbn [mt_co mt] in *. destruct (memb X k (nkey n) x) eqn:Mb; cbn [andb].
    + rewrite Ca by (apply E; reflexivity). unfold ins_val. destruct (eat X m x) as [w|]; [reflexivity|]. destruct (store CC p (nval n)) as [w|] eqn:Es; [symmetry; exact Es|reflexivity].
    + rewrite Cb by (intros Hx; apply E in Hx; discriminate). reflexivity.
Qed.
Theorem atomize_map_ok (t : tree K V) : proper CC p -> mreach X k CC p t -> (forall x, at_ X k CC t x <> None -> exists y, lt x y) ->
  exists m N, esorted X m /\ agrees X k CC t m /\ forall fuel, (N < fuel)%nat -> atomize_map X k M fuel [] t = Ok m.
Proof.
  intros P R H. pose proof (mreach_inv X k HX CC Hco p t R) as I.
  assert (Tp : tops (nodes t)).
  { apply reach_tops; [exact I|]. intros x (a & Ha & Mx). apply H. apply in_map_iff in Ha. destruct Ha as (n & <- & Hn). intros E.
    assert (Q : at_ X k CC t x = Some (nval n)); [|congruence]. apply (at_some X k HX CC t x (nval n) I). exists (nkey n). split; [|exact Mx].
    unfold segs. apply in_map_iff. exists n. split; [reflexivity|exact Hn]. }
  destruct (atomize_map_nodes (nodes t) Tp []) as (m & N & E & S & A); [constructor|]. exists m, N. split; [exact S|]. split; [|exact E].
  intros x. rewrite A. cbn [eat find]. 
  assert (Z : forall n, In n (nodes t) -> store CC p (nval n) = Some (nval n)).
  { intros n Hn. unfold store. destruct (absorbed CC p (nval n)) eqn:Ab; [|reflexivity]. exfalso. unfold absorbed in Ab. apply andb_true_iff in Ab. destruct Ab as [Ea Ez]. apply Hco in Ez.
    destruct (Tp n Hn) as [(y & Hy) _]. apply (at_nz X k HX CC Hco p t y R P Ea). rewrite <- Ez. apply (at_some X k HX CC t y (nval n) I). exists (nkey n).
    split; [|exact Hy]. unfold segs. apply in_map_iff. exists n. split; [reflexivity|exact Hn]. }
  unfold MapSpec.at_, segs. clear - Z. induction (nodes t) as [|n l IH]; [reflexivity|]. cbn [map find fst snd]. rewrite (Z n) by (left; reflexivity).
  rewrite andb_true_r. destruct (memb X k (nkey n) x); [symmetry; apply Z; left; reflexivity|]. apply IH. intros q Hq. apply Z. right. exact Hq.
Qed.
End Map.
End Atomize.

(* ------------------------------------------------------------------------ clustering *)
Section Cluster.
Context (Hdk : dynamic k = false -> disc X = true) (Hi : k = OP -> incr X = true).
Lemma of_value_spec v x : room_up X k v -> room_dn X k v -> (mem (of_value X k v) x <-> x = v).
Proof.
  intros U Dn. replace (of_value X k v) with (singleton X k v); [apply singleton_spec; assumption|].
  unfold of_value, pred, succ. destruct k eqn:Ek; try reflexivity. rewrite (Hi eq_refl). reflexivity.
Qed.
Theorem cluster_set_ok st s : esorted X s -> (forall x, has_elem X s x -> room_up X k x /\ room_dn X k x) ->
  exists t, cluster_set X k st t_empty s = Ok t /\ reach X k st t /\ sagrees X k t s.
Proof.
  intros _ Hr. enough (G : forall s t, (forall x, has_elem X s x -> room_up X k x /\ room_dn X k x) -> reach X k st t ->
    exists t', cluster_set X k st t s = Ok t' /\ reach X k st t' /\ forall x, cmem X k t' x <-> cmem X k t x \/ has_elem X s x).
  { destruct (G s t_empty Hr) as (t & E & R & A); [constructor|]. exists t. split; [exact E|]. split; [exact R|]. intros x. rewrite A. split; [intros [(a & [] & _)|H]; exact H|tauto]. }
  clear s Hr. unfold cluster_set. induction s as [|n s IH]; intros t Hr R; cbn [foldM].
  - exists t. split; [reflexivity|]. split; [exact R|]. intros x. cbn. tauto.
  - destruct (thm_add X k HX st t (of_value X k (fst n)) R) as (t1 & it & E & A). rewrite E. cbn [bind].
    destruct (IH t1) as (t2 & E2 & R2 & A2). { intros x Hx. apply Hr. right. exact Hx. } { eapply R_add; eauto. }
    exists t2. split; [exact E2|]. split; [exact R2|]. intros x. rewrite A2, A. rewrite of_value_spec by (apply Hr; left; reflexivity).
    unfold has_elem. cbn [map In]. intuition congruence.
Qed.

Section Map.
Context (CC : codomain) (Hco : eq_ok CC) (p : mpar).
Notation V := (C CC).
Notation M := (mt CC p).
Theorem cluster_map_ok (m : list (K * V)) : esorted X m -> (forall x, eat X m x <> None -> room_up X k x /\ room_dn X k x) ->
  exists t, cluster_map X k M t_empty m = Ok t /\ mreach X k CC p t /\
    forall x, at_ X k CC t x = match eat X m x with Some v => add_val CC p v None | None => None end.
Proof.
  intros S Hr. enough (G : forall m (t : tree K V), esorted X m -> (forall x, eat X m x <> None -> room_up X k x /\ room_dn X k x) -> mreach X k CC p t ->
    exists t', cluster_map X k M t m = Ok t' /\ mreach X k CC p t' /\ forall x, at_ X k CC t' x = match eat X m x with Some v => add_val CC p v (at_ X k CC t x) | None => at_ X k CC t x end).
  { destruct (G m t_empty S Hr) as (t & E & R & A); [constructor|]. exists t. split; [exact E|]. split; [exact R|]. exact A. }
  clear m S Hr. unfold cluster_map. induction m as [|n m IH]; intros t S Hr R; cbn [foldM].
  - exists t. split; [reflexivity|]. split; [exact R|]. intros x. reflexivity.
  - destruct (thm_madd X k HX CC Hco p t R (of_value X k (fst n)) (snd n)) as (t1 & E & A). rewrite E. cbn [bind].
    apply (sorted_cons X) in S. destruct S as [S Lt].
    destruct (IH t1) as (t2 & E2 & R2 & A2); [exact S| |eapply M_add; eauto|].
    { intros x Hx. apply Hr. rewrite (eat_cons X). destruct (eqb (fst n) x); [discriminate|exact Hx]. }
    exists t2. split; [exact E2|]. split; [exact R2|]. intros x. rewrite A2. destruct (A x) as [A1 A0]. 
    assert (Hn : room_up X k (fst n) /\ room_dn X k (fst n)). { apply Hr. rewrite (eat_cons X). rewrite (proj2 (ElemFacts.eqb_eq X HT _ _) eq_refl). discriminate. }
    rewrite of_value_spec in A1, A0 by apply Hn. rewrite (eat_cons X). destruct (eqb (fst n) x) eqn:Ex.
    + apply (ElemFacts.eqb_eq X HT) in Ex. subst x. rewrite A1 by reflexivity. destruct (eat X m (fst n)) as [w|] eqn:Em; [|reflexivity]. exfalso.
      apply (eat_in X HT) in Em. apply Lt in Em. cbn in Em. unfold lt in Em. rewrite (el_irr X HT) in Em. discriminate.
    + rewrite A0 by (intros ->; rewrite (proj2 (ElemFacts.eqb_eq X HT _ _) eq_refl) in Ex; discriminate). reflexivity.
Qed.
Corollary cluster_map_agrees (m : list (K * V)) : mp_combine p <> F_minus -> proper CC p -> ereach X CC p false m ->
  (forall x, eat X m x <> None -> room_up X k x /\ room_dn X k x) ->
  exists t, cluster_map X k M t_empty m = Ok t /\ mreach X k CC p t /\ agrees X k CC t m.
Proof.
  intros Hf P R Hr. destruct (cluster_map_ok m (ereach_sorted X HT CC Hco p false m R) Hr) as (t & E & Rt & A). exists t. split; [exact E|]. split; [exact Rt|].
  intros x. rewrite A. destruct (eat X m x) as [v|] eqn:Ev; [|reflexivity]. rewrite add_plain by exact Hf. unfold store. destruct (absorbed CC p v) eqn:Ab; [|reflexivity].
  exfalso. unfold absorbed in Ab. apply andb_true_iff in Ab. destruct Ab as [Ea Ez]. apply Hco in Ez. subst v.
  apply (ereach_clean X HT CC Hco p Ea P m R x). exact Ev.
Qed.
End Map.
End Cluster.
End Conv.
