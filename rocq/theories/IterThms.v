(** Output iterators, add_if and morphisms of interval containers. *)
From Verif Require Import IterSpec IterModel MapSpec MapReach MapThms MapThms2 MapThms3 MapThms4 SetSpec SetThms SetProps SetOps SetWhole MapWhole TreeFacts.
From Verif Require Import MapModel.
From Coq Require Import Sorted.

Section IterThms.
Context (X : dom) (k : kind) (HX : dom_ok X k).
Notation K := (D X).
Notation I := (itv K).
Notation mem := (mem X k).

Lemma step_ok {V} (t : tree K V) it : isit t it -> exists it', step_it X t it = Ok (t, it') /\ isit t it'.
Proof.
  intros H. unfold step_it. destruct it as [i|]; [|exists None; split; [reflexivity|exact H]]. cbn [iter_eqb end_].
  cbn in H. destruct (split_at_in X i (nodes t) H) as (L & n & R & E). unfold incr_it. rewrite E. cbn [bind]. eexists. split; [reflexivity|].
  apply split_at_some in E. destruct E as [E _]. apply (isit_hd X t (L ++ [n]) R). rewrite <- app_assoc. exact E.
Qed.

(* ------------------------------------------------------------ sets *)
Lemma copy_add_ok st (t : tree K unit) (it : Tree.iter) l : reach X k st t -> hint_ok X t it ->
  exists t', s_copy_add X k st t it l = Ok t' /\ reach X k st t' /\ forall x, cmem X k t' x <-> cmem X k t x \/ exists a, In a l /\ mem a x.
Proof.
  intros R H. unfold s_copy_add. enough (G : exists t' it', foldM (s_out X k st) (t, it) l = Ok (t', it') /\
    reach X k st t' /\ forall x, cmem X k t' x <-> cmem X k t x \/ exists a, In a l /\ mem a x).
  { destruct G as (t' & it' & E & G). exists t'. unfold Tree.iter in *. rewrite E. split; [reflexivity|exact G]. }
  revert t it R H. induction l as [|a l IH]; intros t it R H; cbn [foldM].
  { exists t, it. split; [reflexivity|]. split; [exact R|]. intros x. split; [tauto|]. intros [Q|(a & [] & _)]; exact Q. }
  destruct (thm_hint X k HX st t it a R H) as (t1 & t2 & i1 & i2 & E1 & E2 & Eq).
  assert (R2 : reach X k st t2) by exact (R_add_hint X k st t it a t2 i2 R H E2).
  assert (V2 : isit t2 i2).
  { destruct (ne_dec X k HX a) as [Ea|Na].
    - rewrite s_add_hint_empty in E2 by auto. injection E2 as <- <-. apply hint_isit. exact H.
    - destruct (s_add_hint_at X k HX st t it a) as (t3 & i3 & E3 & _ & V3 & _); [apply (reach_sinv X k HX); exact R|apply hint_isit; exact H|exact Na|]. rewrite E3 in E2. injection E2 as <- <-. exact V3. }
  unfold s_out at 1. cbn [fst snd]. rewrite E2. cbn [bind]. destruct (step_ok t2 i2 V2) as (i3 & E3 & V3). rewrite E3. cbn [bind].
  destruct (IH t2 i3 R2) as (t' & it' & E' & R' & M'); [apply hint_isit; exact V3|]. exists t', it'. split; [exact E'|]. split; [exact R'|].
  intros x. rewrite M'. destruct (thm_add X k HX st t a R) as (t4 & i4 & E4 & M4). rewrite E1 in E4. injection E4 as <- <-.
  assert (Q : cmem X k t2 x <-> cmem X k t1 x).
  { assert (S : forall x y, same_seg X k (keys X t1) x y <-> same_seg X k (keys X t2) x y) by exact (proj1 (thm_equal_segs X k HX st st t1 t2 (R_add X k st t a t1 i1 R E1) R2) Eq).
    specialize (S x x). unfold same_seg in S. unfold cmem. split; intros (b & Hb & Hm); [apply proj2 in S|apply proj1 in S]; destruct S as (c & ? & ? & ?); eauto. }
  rewrite Q, M4. split.
  - intros [[C|C]|(b & Hb & C)]; [left; exact C|right; exists a; split; [left; reflexivity|exact C]|right; exists b; split; [right; exact Hb|exact C]].
  - intros [C|(b & [<-|Hb] & C)]; [left; left; exact C|left; right; exact C|right; exists b; auto].
Qed.

(* ------------------------------------------------------------ maps *)
Context (CC : codomain) (Hco : eq_ok CC).
Notation V := (C CC).
Notation at_ := (at_ X k CC).
Notation mreach := (mreach X k CC).

Lemma turn_cons g a v l x (o : option V) : in_turn X k g ((a, v) :: l) x o = in_turn X k g l x (if memb X k a x then g v o else o).
Proof. reflexivity. Qed.
Lemma changed_if (t t' : tree K V) a g x : changed X k CC t t' (mem a) g -> at_ t' x = if memb X k a x then g (at_ t x) else at_ t x.
Proof.
  intros H. destruct (H x) as [H1 H2]. pose proof (memb_mem X k a x) as Q. destruct (memb X k a x); [apply H1; tauto|apply H2; intuition congruence].
Qed.
Lemma out_ok (out : tree K V * Tree.iter -> I * V -> res (tree K V * Tree.iter)) p g l :
  (forall t it s, mreach p t -> mhint_ok X CC t it -> exists t' it', out (t, it) s = Ok (t', it') /\ mreach p t' /\ mhint_ok X CC t' it' /\ changed X k CC t t' (mem (fst s)) (g (snd s))) ->
  forall t it, mreach p t -> mhint_ok X CC t it -> exists t' it', foldM out (t, it) l = Ok (t', it') /\ mreach p t' /\ forall x, at_ t' x = in_turn X k g l x (at_ t x).
Proof.
  intros S. induction l as [|[a v] l IH]; intros t it R H; cbn [foldM].
  { exists t, it. split; [reflexivity|]. split; [exact R|]. reflexivity. }
  destruct (S t it (a, v) R H) as (t1 & i1 & E1 & R1 & H1 & C1). unfold Tree.iter in *. rewrite E1. cbn [bind].
  destruct (IH t1 i1 R1 H1) as (t' & it' & E' & R' & M'). exists t', it'. split; [exact E'|]. split; [exact R'|].
  intros x. rewrite M', turn_cons, (changed_if t t1 a (g v) x C1). reflexivity.
Qed.
Lemma mcopy_add_ok p t it l : proper CC p -> mreach p t -> mhint_ok X CC t it ->
  exists t', m_copy_add X k (mt CC p) t it l = Ok t' /\ mreach p t' /\ forall x, at_ t' x = in_turn X k (add_val CC p) l x (at_ t x).
Proof.
  intros P R H. unfold m_copy_add.
  destruct (out_ok (m_out_add X k (mt CC p)) p (add_val CC p) l) with (t := t) (it := it) as (t' & it' & E & G); auto.
  2:{ exists t'. split; [|exact G]. match goal with |- bind ?e _ = _ => replace e with (Ok (t', it')) by (symmetry; exact E) end. reflexivity. }
  clear t it R H. intros t it [a v] R H. unfold m_out_add. cbn [fst snd].
  destruct (add_hint_any X k HX (mt CC p) Hco (codomain_combine (mt CC p)) t it a v) as (t1 & i1 & E1 & I1 & V1 & C1); [apply (mreach_minv X k HX CC Hco); exact R|apply mhint_isit; exact H|].
  unfold m_add_hint. rewrite E1. cbn [bind]. destruct (step_ok t1 i1 V1) as (i2 & E2 & V2). rewrite E2.
  exists t1, i2. split; [reflexivity|]. split; [exact (M_add_hint X k CC p t it a v t1 i1 R H E1)|]. split; [apply mhint_isit; exact V2|].
  apply (chg_changed X k HX CC p t t1 a _ _ (C1 (mreach_aok X k HX CC Hco p t R P) (proj1 P))). intros o. apply ga_plus.
Qed.
Lemma mcopy_ins_ok p t it l : mreach p t -> mhint_ok X CC t it ->
  exists t', m_copy_insert X k (mt CC p) t it l = Ok t' /\ mreach p t' /\ forall x, at_ t' x = in_turn X k (ins_val CC p) l x (at_ t x).
Proof.
  intros R H. unfold m_copy_insert.
  destruct (out_ok (m_out_insert X k (mt CC p)) p (ins_val CC p) l) with (t := t) (it := it) as (t' & it' & E & G); auto.
  2:{ exists t'. split; [|exact G]. match goal with |- bind ?e _ = _ => replace e with (Ok (t', it')) by (symmetry; exact E) end. reflexivity. }
  clear t it R H. intros t it [a v] R H. unfold m_out_insert. cbn [fst snd].
  destruct (ins_hint_any X k HX (mt CC p) Hco t it a v) as (t1 & i1 & E1 & I1 & V1 & C1); [apply (mreach_minv X k HX CC Hco); exact R|apply mhint_isit; exact H|].
  rewrite E1. cbn [bind]. destruct (step_ok t1 i1 V1) as (i2 & E2 & V2). rewrite E2.
  exists t1, i2. split; [reflexivity|]. split; [exact (M_insert_hint X k CC p t it a v t1 i1 R H E1)|]. split; [apply mhint_isit; exact V2|].
  apply (chg_changed X k HX CC p t t1 a _ _ C1). intros o. apply gi_ins.
Qed.

(* ------------------------------------------------------------ the segments of a map in turn *)
Lemma turn_none g l x (o : option V) : (forall n, In n l -> inr k (nkey n) (pt X x) = false) -> in_turn X k g (map (fun n => (nkey n, nval n)) l) x o = o.
Proof.
  revert o. induction l as [|n l IH]; intros o H; [reflexivity|]. cbn [map]. rewrite turn_cons, memb_inr, (H n) by auto with datatypes. apply IH. auto with datatypes.
Qed.
Lemma turn_segs g (t : tree K V) x o : inv k t -> in_turn X k g (segs X CC t) x o = match at_ t x with Some v => g v o | None => o end.
Proof.
  intros [_ S]. rewrite at_vr by exact HX. unfold segs. revert o S. induction (nodes t) as [|n l IH]; intros o S; [reflexivity|].
  cbn [map vr]. rewrite turn_cons, memb_inr by exact HX. destruct (inr k (nkey n) (pt X x)) eqn:E; cbn [orelse].
  - apply turn_none. intros m Hm. destruct (inr k (nkey m) (pt X x)) eqn:F; [|reflexivity]. exfalso.
    pose proof (vr_cons_in X k HX n l (pt X x) S E) as Q. destruct S as (_ & _ & S).
    rewrite (proj2 (vr_some X k HX l (pt X x) (nval m) S)) in Q by (exists m; auto). discriminate.
  - apply IH. apply S.
Qed.
Lemma fold_ins p l t : mreach p t -> exists t', foldM (fun t n => m_insert X k (mt CC p) t (nkey n) (nval n)) t l = Ok t' /\ mreach p t' /\
  forall x, at_ t' x = in_turn X k (ins_val CC p) (map (fun n => (nkey n, nval n)) l) x (at_ t x).
Proof.
  revert t. induction l as [|n l IH]; intros t R; cbn [foldM map].
  { exists t. split; [reflexivity|]. split; [exact R|]. reflexivity. }
  destruct (thm_mins X k HX CC Hco p t R (nkey n) (nval n)) as (t1 & E1 & C1). cbn [mt_co mt] in *. rewrite E1. cbn [bind].
  destruct (IH t1 (M_insert X k CC p t _ _ t1 R E1)) as (t' & E' & R' & M'). exists t'. split; [exact E'|]. split; [exact R'|].
  intros x. rewrite M', turn_cons, (changed_if t t1 _ _ x C1). reflexivity.
Qed.
Lemma joiner_ok p p' joint split : mreach p joint -> mreach p' split ->
  exists t', m_joiner X k (mt CC p) joint split = Ok t' /\ mreach p t' /\ combined X k CC joint split t' (ins_val CC p).
Proof.
  intros R R'. unfold m_joiner. destruct (thm_mjoin X k HX CC Hco p' split R') as (s & E & _ & A). cbn [mt_co mt] in *. rewrite E. cbn [bind].
  destruct (fold_ins p (nodes s) joint R) as (t' & E' & R1 & A'). exists t'. split; [exact E'|]. split; [exact R1|].
  intros x. rewrite A'. change (map _ (nodes s)) with (segs X CC s). rewrite turn_segs, A; [reflexivity|].
  destruct (join_at X k HX cc_eq Hco split (mreach_inv X k HX CC Hco p' split R')) as (s' & Es & Is & _). rewrite E in Es. injection Es as <-. exact Is.
Qed.
Lemma identity_absorber_ok p p' absorber enricher : mreach p absorber -> mreach p' enricher ->
  exists t', m_identity_absorber X k (mt CC p) absorber enricher = Ok t' /\ mreach p t' /\
  forall x, at_ t' x = match at_ absorber x with Some v => Some v | None =>
    match at_ enricher x with Some v => if cc_eq v cc_zero then None else Some v | None => None end end.
Proof.
  intros R R'. unfold m_identity_absorber.
  destruct (erase_if_all X k HX (mt CC p') (fun _ v => cc_eq v cc_zero) enricher) as (e & E & I1 & A1); [apply (mreach_minv X k HX CC Hco); exact R'|].
  change (m_erase_if X (mt CC p')) with (m_erase_if X (mt CC p)) in E. cbn [mt_co mt] in *. rewrite E. cbn [bind].
  destruct (fold_ins p (nodes e) absorber R) as (t' & E' & R1 & A'). exists t'. split; [exact E'|]. split; [exact R1|].
  intros x. rewrite A'. change (map _ (nodes e)) with (segs X CC e). rewrite turn_segs by apply I1.
  assert (Q : at_ e x = match at_ enricher x with Some v => if cc_eq v cc_zero then None else Some v | None => None end).
  { rewrite !at_vr by exact HX. rewrite A1. apply (filter_vf X k HX (mt CC p') (fun v => cc_eq v cc_zero)). apply (mreach_inv X k HX CC Hco p'). exact R'. }
  rewrite Q. destruct (at_ enricher x) as [v|]; [|destruct (at_ absorber x); reflexivity]. destruct (cc_eq v cc_zero) eqn:Z; [destruct (at_ absorber x); reflexivity|].
  unfold ins_val, store, absorbed. rewrite Z, andb_false_r. reflexivity.
Qed.

(* ------------------------------------------------------------ add_if *)
Lemma madd_if_ok p t o (pred : I -> V -> bool) p' : mreach p t -> mreach p' o -> (forall a v, In (a, v) (segs X CC o) -> pred a v = true) ->
  exists t', m_add_if X k (mt CC p) (S (length (nodes o))) pred t (nodes o) = Ok t' /\ mreach p t' /\ combined X k CC t o t' (add_val CC p).
Proof.
  intros R Ro H. enough (G : exists t', m_add_if X k (mt CC p) (S (length (nodes o))) pred t (nodes o) = Ok t' /\ mreach p t' /\
    forall x, at_ t' x = in_turn X k (add_val CC p) (segs X CC o) x (at_ t x)).
  { destruct G as (t' & E & R' & A). exists t'. split; [exact E|]. split; [exact R'|]. intros x. rewrite A. apply turn_segs. apply (mreach_inv X k HX CC Hco p'). exact Ro. }
  unfold segs in *. clear Ro p'. revert t R H. induction (nodes o) as [|n l IH]; intros t R H.
  { exists t. split; [reflexivity|]. split; [exact R|]. reflexivity. }
  cbn [length map]. remember (S (length l)) as f eqn:Ef. cbn [m_add_if]. cbn [mt_co mt] in *. rewrite (H (nkey n) (nval n)) by (left; reflexivity).
  destruct (thm_madd X k HX CC Hco p t R (nkey n) (nval n)) as (t1 & E1 & C1). cbn [mt_co mt] in *. rewrite E1. cbn [bind].
  destruct (IH t1 (M_add X k CC p t _ _ t1 R E1)) as (t' & E' & R' & A'). { intros a v I. apply H. right. exact I. }
  exists t'. split; [exact E'|]. split; [exact R'|]. intros x. rewrite A', turn_cons, (changed_if t t1 _ _ x C1). reflexivity.
Qed.
Lemma madd_if_endless p t (o : tree K V) (pred : I -> V -> bool) : mreach p t -> (exists a v, In (a, v) (segs X CC o) /\ pred a v = false) ->
  forall fuel, m_add_if X k (mt CC p) fuel pred t (nodes o) = Err Fuel.
Proof.
  intros R (a & v & I & H) fuel. unfold segs in I. revert t R fuel I. induction (nodes o) as [|n l IH]; intros t R fuel I; [destruct I|].
  destruct (pred (nkey n) (nval n)) eqn:E.
  - destruct I as [Q|I]; [injection Q as <- <-; congruence|]. destruct fuel as [|fuel]; [reflexivity|]. cbn [m_add_if]. cbn [mt_co mt] in *. rewrite E.
    destruct (thm_madd X k HX CC Hco p t R (nkey n) (nval n)) as (t1 & E1 & C1). cbn [mt_co mt] in *. rewrite E1. cbn [bind].
    apply IH; [exact (M_add X k CC p t _ _ t1 R E1)|exact I].
  - clear IH I. induction fuel as [|fuel IH]; [reflexivity|]. cbn [m_add_if]. cbn [mt_co mt] in *. rewrite E. exact IH.
Qed.
(** sets *)
Lemma fold_sadd st l t : reach X k st t -> exists t', foldM (fun t n => ' (t, _) <- s_add X k st t (nkey n) ;; Ok t) t l = Ok t' /\ reach X k st t' /\
  forall x, cmem X k t' x <-> cmem X k t x \/ exists n : node K unit, In n l /\ mem (nkey n) x.
Proof.
  revert t. induction l as [|n l IH]; intros t R; cbn [foldM].
  { exists t. split; [reflexivity|]. split; [exact R|]. intros x. split; [tauto|]. intros [Q|(a & [] & _)]; exact Q. }
  destruct (thm_add X k HX st t (nkey n) R) as (t1 & i1 & E1 & M1). rewrite E1. cbn [bind].
  destruct (IH t1 (R_add X k st t _ t1 i1 R E1)) as (t' & E' & R' & M'). exists t'. split; [exact E'|]. split; [exact R'|].
  intros x. rewrite M', M1. split.
  - intros [[C|C]|(b & Hb & C)]; [left; exact C|right; exists n; split; [left; reflexivity|exact C]|right; exists b; split; [right; exact Hb|exact C]].
  - intros [C|(b & [<-|Hb] & C)]; [left; left; exact C|left; right; exact C|right; exists b; auto].
Qed.
Lemma sjoiner_ok st st' joint split : reach X k st joint -> reach X k st' split ->
  exists t', s_joiner X k st joint split = Ok t' /\ reach X k st t' /\ forall x, cmem X k t' x <-> cmem X k joint x \/ cmem X k split x.
Proof.
  intros R R'. unfold s_joiner. destruct (thm_join X k HX st' split R') as (s & E & A & _). rewrite E. cbn [bind].
  destruct (fold_sadd st (nodes s) joint R) as (t' & E' & R1 & A'). exists t'. split; [exact E'|]. split; [exact R1|].
  intros x. rewrite A', <- A. unfold cmem, keys. split; (intros [Q|Q]; [left; exact Q|right]).
  - destruct Q as (n & Hn & Hm). exists (nkey n). split; [apply in_map; exact Hn|exact Hm].
  - destruct Q as (b & Hb & Hm). apply in_map_iff in Hb. destruct Hb as (n & <- & Hn). exists n. auto.
Qed.
End IterThms.
