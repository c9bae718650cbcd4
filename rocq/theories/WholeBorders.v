(** Segment borders after operations with whole containers (C93). *)
From Verif Require Import HistThms MapThms MapThms2 MapThms3 MapBorders MapCuts MapReach MapInst SetLaws SetThms SetProps SetQuery3 SetWhole.
From Verif Require Import MapModel.
From Coq Require Import Sorted Relations.

Section Loops.
Context (X : dom) (k : kind) (HX : dom_ok X k).
Notation I := (itv (D X)).
Notation mem := (mem X k).
Notation same_seg := (same_seg X k).
Notation clear_of := (clear_of X).
Definition inl_ (l : list I) (x : D X) : Prop := exists a, In a l /\ mem a x.
Definition apart (a : I) (l : list I) : Prop := forall b x, In b l -> mem b x -> ~ mem a x.

Lemma mem_conv a x y z : mem a x -> mem a y -> le x z -> le z y -> mem a z.
Proof.
  intros Hx Hy H1 H2. rewrite (le_pt X) in H1, H2. rewrite !(mem_inr X k HX) in *. unfold inr in *.
  apply andb_true_iff in Hx, Hy. destruct Hx as [A _], Hy as [_ B]. apply andb_true_iff. rewrite negb_true_iff in A |- *. cord_ X k HX.
Qed.
Lemma le_id (x : D X) : le x x. Proof. apply (SetProps.le_refl X k HX). Qed.
Lemma in_snoc l a x : inl_ (l ++ [a]) x <-> inl_ l x \/ mem a x.
Proof.
  unfold inl_. split.
  - intros (b & Hb & M). apply in_app_iff in Hb. destruct Hb as [Hb|[<-|[]]]; eauto.
  - intros [(b & Hb & M)|M]; [exists b|exists a]; rewrite in_app_iff; cbn; auto.
Qed.
Lemma seg_snoc l a x y : same_seg (l ++ [a]) x y <-> same_seg l x y \/ (mem a x /\ mem a y).
Proof.
  unfold Spec.same_seg. split.
  - intros (b & Hb & M). apply in_app_iff in Hb. destruct Hb as [Hb|[<-|[]]]; eauto.
  - intros [(b & Hb & M)|M]; [exists b|exists a]; rewrite in_app_iff; cbn; tauto.
Qed.
Lemma seg_in l x y : same_seg l x y -> inl_ l x.
Proof. intros (a & Ha & M & _). exists a. auto. Qed.
Lemma clear_snoc l a x y : clear_of (inl_ (l ++ [a])) x y <-> clear_of (inl_ l) x y /\ clear_of (mem a) x y.
Proof. apply (clear_or X). intros z. apply in_snoc. Qed.
Lemma mdec a x : mem a x \/ ~ mem a x.
Proof. pose proof (memb_mem X k a x) as M. destruct (memb X k a x); [left; apply M; auto|right; intros Q; apply M in Q; discriminate]. Qed.

(** K' has the segments of K, cut at the borders of P *)
Definition cutw (K P K' : list I) : Prop :=
  (forall x y, le x y -> (same_seg K' x y <-> inl_ K' x /\ (same_seg K x y \/ clear_of (inl_ K) x y) /\ (same_seg P x y \/ clear_of (inl_ P) x y))) /\
  (forall x, ~ inl_ P x -> (inl_ K' x <-> inl_ K x)).
Lemma cutw_nil K : cutw K [] K.
Proof.
  assert (E : forall x, ~ inl_ [] x) by (intros x (a & [] & _)).
  split; [|tauto]. intros x y L. split.
  - intros S. split; [eapply seg_in; eauto|]. split; auto. right. intros z _ _. apply E.
  - intros (A & [S|S] & _); auto. destruct (S x (le_id x) L A).
Qed.
Lemma cutw_snoc K P K1 a K2 : cutw K P K1 -> apart a P ->
  (forall x y, le x y -> (same_seg K2 x y <-> inl_ K2 x /\ (same_seg K1 x y \/ clear_of (inl_ K1) x y) /\ ((mem a x /\ mem a y) \/ clear_of (mem a) x y))) ->
  (forall x, ~ mem a x -> (inl_ K2 x <-> inl_ K1 x)) -> cutw K (P ++ [a]) K2.
Proof.
  intros [C1 O1] Ap C2 O2. split.
  2: { intros x N. rewrite in_snoc in N. rewrite O2, O1 by tauto. tauto. }
  intros x y L. rewrite (C2 x y L), seg_snoc, clear_snoc.
  assert (NP : forall z, mem a z -> ~ inl_ P z). { intros z Mz (b & Hb & Mb). exact (Ap b z Hb Mb Mz). }
  assert (A : mem a x -> mem a y -> ((same_seg K1 x y \/ clear_of (inl_ K1) x y) <-> (same_seg K x y \/ clear_of (inl_ K) x y))).
  { intros Ax Ay. assert (NQ : clear_of (inl_ P) x y). { intros z L1 L2. apply NP. exact (mem_conv a x y z Ax Ay L1 L2). }
    assert (E : forall z, le x z -> le z y -> (inl_ K1 z <-> inl_ K z)). { intros z L1 L2. apply O1. exact (NQ z L1 L2). }
    assert (EC : clear_of (inl_ K1) x y <-> clear_of (inl_ K) x y). { split; intros Q z L1 L2 R; apply (Q z L1 L2), E; auto. }
    rewrite EC, (C1 x y L), (E x (le_id x) L). split; [tauto|]. intros [S|S]; auto. left. split; [eapply seg_in; eauto|]. auto. }
  assert (B : clear_of (mem a) x y -> inl_ K2 x -> ((same_seg K1 x y \/ clear_of (inl_ K1) x y) <-> (same_seg K x y \/ clear_of (inl_ K) x y) /\ (same_seg P x y \/ clear_of (inl_ P) x y))).
  { intros Ca Kx. assert (K1x : inl_ K1 x) by (apply O2; auto; apply Ca; [apply le_id|exact L]). rewrite (C1 x y L). split; [|tauto].
    intros [S|S]; [tauto|]. destruct (S x (le_id x) L K1x). }
  assert (D : same_seg P x y -> clear_of (mem a) x y).
  { intros (b & Hb & Bx & By) z L1 L2. apply (Ap b z Hb). exact (mem_conv b x y z Bx By L1 L2). }
  split.
  - intros (Kx & U & [[Ax Ay]|Ca]); split; auto.
    + split; [apply A; auto|]. auto.
    + apply B in U; auto. tauto.
  - intros (Kx & U & [[S|[Ax Ay]]|[Cp Ca]]); split; auto.
    + split; [apply B; auto|auto].
    + split; [apply A; auto|auto].
    + split; [apply B; auto|auto].
Qed.

(** K' has the segments of K, the gaps filled with the segments of P *)
Definition fillw (K P K' : list I) : Prop :=
  forall x y, le x y -> (same_seg K' x y <-> same_seg K x y \/ (same_seg P x y /\ clear_of (inl_ K) x y)).
Lemma fillw_nil K : fillw K [] K.
Proof. intros x y L. split; auto. intros [S|[(a & [] & _) _]]. auto. Qed.
Lemma in_seg l x : inl_ l x <-> same_seg l x x.
Proof. unfold inl_, Spec.same_seg. split; intros (a & H); exists a; tauto. Qed.
Lemma idec l x : inl_ l x \/ ~ inl_ l x.
Proof.
  induction l as [|a l IH]; [right; intros (b & [] & _)|]. destruct (mdec a x) as [M|M]; [left; exists a; cbn; auto|].
  destruct IH as [(b & Hb & Mb)|N]; [left; exists b; cbn; auto|right]. intros (b & [<-|Hb] & Mb); auto. apply N. exists b. auto.
Qed.
Lemma clear_one l x : ~ inl_ l x -> clear_of (inl_ l) x x.
Proof. intros N z L1 L2 (a & Ha & M). apply N. exists a. split; auto. exact (mem_conv a z z x M M L2 L1). Qed.
Lemma fillw_in K P K' x : fillw K P K' -> (inl_ K' x <-> inl_ K x \/ inl_ P x).
Proof.
  intros F. rewrite (in_seg K' x), (F x x (le_id x)), <- !in_seg. split; [tauto|]. intros [S|S]; auto.
  destruct (idec K x) as [Q|Q]; auto. right. split; auto. apply clear_one. exact Q.
Qed.
Lemma fillw_snoc K P K1 a K2 : fillw K P K1 -> apart a P ->
  (forall x y, le x y -> (same_seg K2 x y <-> same_seg K1 x y \/ (mem a x /\ mem a y /\ clear_of (inl_ K1) x y))) -> fillw K (P ++ [a]) K2.
Proof.
  intros F Ap C x y L. rewrite (C x y L), (F x y L), seg_snoc.
  assert (A : mem a x -> mem a y -> (clear_of (inl_ K1) x y <-> clear_of (inl_ K) x y)).
  { intros Ax Ay. split; intros Q z L1 L2 R; apply (Q z L1 L2).
    - apply (fillw_in K P K1 z F). auto.
    - apply (fillw_in K P K1 z F) in R. destruct R as [R|(b & Hb & Mb)]; auto. destruct (Ap b z Hb Mb). exact (mem_conv a x y z Ax Ay L1 L2). }
  split.
  - intros [[S|[S Q]]|(Ax & Ay & Q)]; auto. right. split; auto. apply A; auto.
  - intros [S|[[S|[Ax Ay]] Q]]; auto. right. rewrite (A Ax Ay). auto.
Qed.

(** K' is K without P *)
Definition lessw (K P K' : list I) : Prop :=
  forall x y, le x y -> (same_seg K' x y <-> same_seg K x y /\ clear_of (inl_ P) x y).
Lemma lessw_nil K : lessw K [] K.
Proof. intros x y L. split; [|tauto]. intros S. split; auto. intros z _ _ (a & [] & _). Qed.
Lemma lessw_snoc K P K1 a K2 : lessw K P K1 ->
  (forall x y, le x y -> (same_seg K2 x y <-> same_seg K1 x y /\ clear_of (mem a) x y)) -> lessw K (P ++ [a]) K2.
Proof. intros F C x y L. rewrite (C x y L), (F x y L), clear_snoc. tauto. Qed.

(** stored intervals are pairwise disjoint *)
Lemma stored_apart {V} (o : Tree.tree (D X) V) P n l : inv k o -> nodes o = P ++ n :: l -> apart (nkey n) (map nkey P).
Proof.
  intros Io E. destruct (inv_ascending X k HX o Io) as [_ S]. unfold keys in S. rewrite E, map_app in S. cbn [map] in S.
  assert (G : forall c, ~ lt (X := X) c c) by (intros c; unfold lt; rewrite (ltb_irrefl X k HX); discriminate).
  revert S. generalize (map nkey P). intros Q S. induction Q as [|b Q IH]; intros c x Hc Mc Ma; [destruct Hc|].
  cbn [app] in S. inversion S as [|? ? S1 F]; subst. destruct Hc as [<-|Hc]; [|exact (IH S1 c x Hc Mc Ma)].
  rewrite Forall_forall in F. apply (G x). apply (F (nkey n)); auto. apply in_app_iff. cbn. auto.
Qed.
(** elements of t are not in the part of o outside the common range *)
Lemma befor_apart {V W} (L : list (Tree.node (D X) V)) (R : list (Tree.node (D X) W)) x : befor X k L R -> inl_ (map nkey L) x -> ~ inl_ (map nkey R) x.
Proof.
  intros B (a & Ha & Ma) (b & Hb & Mb). apply in_map_iff in Ha, Hb. destruct Ha as (n & <- & Hn), Hb as (m & <- & Hm).
  specialize (B n m Hn Hm). rewrite !(mem_inr X k HX) in *. unfold inr in *. cord_ X k HX.
Qed.
Lemma lessw_common {V W} (t : Tree.tree (D X) V) (o : Tree.tree (D X) W) L M R K' : nodes o = L ++ M ++ R -> befor X k L (nodes t) -> befor X k (nodes t) R ->
  lessw (keys X t) (map nkey M) K' -> lessw (keys X t) (keys X o) K'.
Proof.
  intros E BL BR H x y Lxy. rewrite (H x y Lxy). split; intros [S C]; split; auto.
  - intros z L1 L2 Hz. assert (Tz : inl_ (keys X t) z). { destruct S as (b & Hb & Bx & By). exists b. split; auto. exact (mem_conv b x y z Bx By L1 L2). }
    unfold keys in Hz. rewrite E, !map_app in Hz. destruct Hz as (c & Hc & Mc). rewrite !in_app_iff in Hc. destruct Hc as [Hc|[Hc|Hc]].
    + apply (befor_apart L (nodes t) z BL); [exists c; auto|exact Tz].
    + apply (C z L1 L2). exists c. auto.
    + apply (befor_apart (nodes t) R z BR Tz). exists c. auto.
  - intros z L1 L2 (c & Hc & Mc). apply (C z L1 L2). exists c. split; auto. unfold keys. rewrite E, !map_app, !in_app_iff. auto.
Qed.
End Loops.

Section WholeMaps.
Context (X : dom) (k : kind) (HX : dom_ok X k) (CC : codomain) (Hco : eq_ok CC).
Notation I := (itv (D X)).
Notation V := (C CC).
Notation node := (node (D X) V).
Notation imap := (tree (D X) V).
Notation mem := (mem X k).
Notation cmem := (SetSpec.cmem X k).
Notation same_seg := (same_seg X k).
Notation clear_of := (clear_of X).
Notation at_ := (at_ X k CC).
Notation mreach := (mreach X k CC).
Notation apart := (apart X k).
Notation cutw := (cutw X k).
Notation fillw := (fillw X k).
Notation lessw := (lessw X k).
Definition stored (p : mpar) (l : list node) : Prop := Forall (fun n => (exists x, mem (nkey n) x) /\ absorbed CC p (nval n) = false) l.

Lemma eqb_seg p t o : mreach p t -> mreach p o -> m_eqb X k (mt CC p) t o = true -> forall x y, same_seg (keys X t) x y <-> same_seg (keys X o) x y.
Proof. intros Ht Ho E. apply (thm_meqb X k HX CC Hco p p t o Ht Ho) in E. destruct E as [_ E]. unfold segs in E. rewrite !map_map in E. exact E. Qed.
Lemma at_cmem t x : at_ t x <> None <-> cmem t x.
Proof. rewrite (cmem_vr X k HX), (at_vr X k HX CC). reflexivity. Qed.
Lemma changed_out t t' a g x : changed X k CC t t' (mem a) g -> ~ mem a x -> (cmem t' x <-> cmem t x).
Proof. intros C N. rewrite <- !at_cmem. destruct (C x) as [_ E]. rewrite (E N). reflexivity. Qed.
Lemma seg_eq_in (t t' : imap) : (forall x y, same_seg (keys X t) x y <-> same_seg (keys X t') x y) -> forall x, cmem t x <-> cmem t' x.
Proof. intros H x. specialize (H x x). rewrite <- !in_seg in H. exact H. Qed.

(** += *)
Lemma hint_cut p t h a v : mreach p t -> mp_style p = MSplit -> proper CC p -> mhint_ok X CC t h -> (exists x, mem a x) -> absorbed CC p v = false ->
  exists t' h', m_add_hint X k (mt CC p) t h a v = Ok (t', h') /\ mreach p t' /\ mhint_ok X CC t' h' /\
    (forall x y, le x y -> (same_seg (keys X t') x y <-> cmem t' x /\ (same_seg (keys X t) x y \/ clear_of (cmem t) x y) /\ ((mem a x /\ mem a y) \/ clear_of (mem a) x y))) /\
    (forall x, ~ mem a x -> (cmem t' x <-> cmem t x)).
Proof.
  intros Ht Hs P Hh Na Ab. destruct (thm_madd_hint X k HX CC Hco p t h a v Ht Hh P) as (t1 & t2 & it & E1 & E2 & Q).
  pose proof (M_add X k CC p t a v t1 Ht E1) as R1. pose proof (M_add_hint X k CC p t h a v t2 it Ht Hh E2) as R2.
  exists t2, it. split; auto. split; auto. split.
  { destruct (add_hint_any X k HX (mt CC p) Hco (codomain_combine (mt CC p)) t h a v) as (u & i & E3 & _ & Vi & _); [apply (mreach_minv X k HX CC Hco); auto|apply mhint_isit; auto|].
    unfold m_add_hint in E2. rewrite E3 in E2. injection E2 as <- <-. apply mhint_isit. exact Vi. }
  pose proof (eqb_seg p t1 t2 R1 R2 Q) as S. pose proof (seg_eq_in t1 t2 S) as In.
  destruct (thm_add_borders X k HX CC Hco p t Ht Hs a v Na Ab) as (u & E3 & C). assert (u = t1) by congruence. subst u.
  destruct (thm_madd X k HX CC Hco p t Ht a v) as (u & E4 & C4). assert (u = t1) by congruence. subst u. split.
  - intros x y L. rewrite <- (S x y), <- (In x). apply C. exact L.
  - intros x N. rewrite <- (In x). eapply changed_out; eauto.
Qed.
Theorem whole_add p p' t o : mreach p t -> mreach p' o -> mp_style p = MSplit -> proper CC p -> (forall s, In s (segs X CC o) -> absorbed CC p (snd s) = false) ->
  exists t', m_add_map X k (mt CC p) t o = Ok t' /\ forall x y, le x y -> (same_seg (keys X t') x y <->
    cmem t' x /\ (same_seg (keys X t) x y \/ clear_of (cmem t) x y) /\ (same_seg (keys X o) x y \/ clear_of (cmem o) x y)).
Proof.
  intros Ht Ho Hs P Ab. pose proof (mreach_inv X k HX CC Hco p' o Ho) as Io.
  assert (G : forall l d u h, nodes o = d ++ l -> mreach p u -> mhint_ok X CC u h -> cutw (keys X t) (map nkey d) (keys X u) ->
    exists t' h', foldM (fun '(t, prior_) n => m_add_hint X k (mt CC p) t prior_ (nkey n) (nval n)) (u, h) l = Ok (t', h') /\ cutw (keys X t) (keys X o) (keys X t')).
  { induction l as [|n l IH]; intros d u h E Ru Hh C; cbn [foldM].
    - exists u, h. split; auto. unfold keys at 2. rewrite E, app_nil_r. exact C.
    - assert (Hn : In n (nodes o)) by (rewrite E; apply in_app_iff; cbn; auto).
      destruct (hint_cut p u h (nkey n) (nval n) Ru Hs P Hh) as (u1 & h1 & E1 & R1 & H1 & C1 & O1).
      + apply (inv_ascending X k HX o Io). unfold keys. apply in_map. exact Hn.
      + apply (Ab (nkey n, nval n)). unfold segs. apply in_map_iff. exists n. auto.
      + cbn [mt_co mt] in E1 |- *. rewrite E1. cbn [bind]. apply (IH (d ++ [n])); auto; [rewrite <- app_assoc; exact E|]. rewrite map_app. cbn [map].
        eapply (cutw_snoc X k HX); [exact C| |exact C1|exact O1]. eapply (stored_apart X k HX o); eauto. }
  destruct (G (nodes o) [] t (end_ t) eq_refl Ht Logic.I (cutw_nil X k HX _)) as (t' & h' & E & C). exists t'. split; [exact (f_equal (fun r => bind r (fun '(t, _) => Ok t)) E)|]. apply C.
Qed.
(** -= *)
Theorem whole_subtract p p' t o : mreach p t -> mreach p' o -> mp_style p = MSplit -> (forall s, In s (segs X CC o) -> absorbed CC p (snd s) = false) ->
  exists t', m_subtract_map X k (mt CC p) t o = Ok t' /\ forall x y, le x y -> (same_seg (keys X t') x y <->
    cmem t' x /\ (same_seg (keys X t) x y \/ clear_of (cmem t) x y) /\ (same_seg (keys X o) x y \/ clear_of (cmem o) x y)).
Proof.
  intros Ht Ho Hs Ab. pose proof (mreach_inv X k HX CC Hco p' o Ho) as Io.
  assert (G : forall l d u, nodes o = d ++ l -> mreach p u -> cutw (keys X t) (map nkey d) (keys X u) ->
    exists t', foldM (fun t n => m_subtract X k (mt CC p) t (nkey n) (nval n)) u l = Ok t' /\ cutw (keys X t) (keys X o) (keys X t')).
  { induction l as [|n l IH]; intros d u E Ru C; cbn [foldM].
    - exists u. split; auto. unfold keys at 2. rewrite E, app_nil_r. exact C.
    - assert (Hn : In n (nodes o)) by (rewrite E; apply in_app_iff; cbn; auto).
      destruct (thm_subtract_borders X k HX CC Hco p u Ru Hs (nkey n) (nval n)) as (u1 & E1 & C1).
      + apply (inv_ascending X k HX o Io). unfold keys. apply in_map. exact Hn.
      + apply (Ab (nkey n, nval n)). unfold segs. apply in_map_iff. exists n. auto.
      + destruct (thm_msub X k HX CC Hco p u Ru (nkey n) (nval n)) as (u2 & E2 & C2). assert (u2 = u1) by congruence. subst u2.
        cbn [mt_co mt] in E1 |- *. rewrite E1. cbn [bind]. apply (IH (d ++ [n])); [rewrite <- app_assoc; exact E|eapply M_subtract; eauto|]. rewrite map_app. cbn [map].
        eapply (cutw_snoc X k HX); [exact C| |exact C1|]. { eapply (stored_apart X k HX o); eauto. } intros x N. eapply changed_out; eauto. }
  destruct (G (nodes o) [] t eq_refl Ht (cutw_nil X k HX _)) as (t' & E & C). exists t'. split; [exact E|]. apply C.
Qed.
(** insert *)
Theorem whole_insert p p' t o : mreach p t -> mreach p' o -> mp_style p = MSplit -> (forall s, In s (segs X CC o) -> absorbed CC p (snd s) = false) ->
  exists t', m_insert_map X k (mt CC p) t o = Ok t' /\ forall x y, le x y -> (same_seg (keys X t') x y <->
    same_seg (keys X t) x y \/ (same_seg (keys X o) x y /\ clear_of (cmem t) x y)).
Proof.
  intros Ht Ho Hs Ab. pose proof (mreach_inv X k HX CC Hco p' o Ho) as Io.
  assert (G : forall l d u, nodes o = d ++ l -> mreach p u -> fillw (keys X t) (map nkey d) (keys X u) ->
    exists t', foldM (fun t n => ' (t, _) <- m_insert_hint X k (mt CC p) t None (nkey n) (nval n) ;; Ok t) u l = Ok t' /\ fillw (keys X t) (keys X o) (keys X t')).
  { induction l as [|n l IH]; intros d u E Ru C; cbn [foldM].
    - exists u. split; auto. unfold keys at 2. rewrite E, app_nil_r. exact C.
    - assert (Hn : In n (nodes o)) by (rewrite E; apply in_app_iff; cbn; auto).
      destruct (thm_mins_hint X k HX CC Hco p u None (nkey n) (nval n) Ru Logic.I) as (u1 & u2 & it & E1 & E2 & Q).
      pose proof (M_insert X k CC p u (nkey n) (nval n) u1 Ru E1) as R1. pose proof (M_insert_hint X k CC p u None (nkey n) (nval n) u2 it Ru Logic.I E2) as R2.
      pose proof (eqb_seg p u1 u2 R1 R2 Q) as S.
      destruct (thm_insert_borders X k HX CC Hco p u Ru Hs (nkey n) (nval n)) as (u3 & E3 & C3).
      + apply (Ab (nkey n, nval n)). unfold segs. apply in_map_iff. exists n. auto.
      + assert (u3 = u1) by congruence. subst u3. cbn [mt_co mt] in E2 |- *. rewrite E2. cbn [bind]. apply (IH (d ++ [n])); [rewrite <- app_assoc; exact E|exact R2|]. rewrite map_app. cbn [map].
        eapply (fillw_snoc X k HX); [exact C| |]. { eapply (stored_apart X k HX o); eauto. } intros x y L. rewrite <- (S x y). apply C3. exact L. }
  destruct (G (nodes o) [] t eq_refl Ht (fillw_nil X k _)) as (t' & E & C). exists t'. split; [exact E|]. exact C.
Qed.
(** erase(set), -= set *)
Theorem whole_erase_set p st t o : mreach p t -> reach X k st o -> exists t', m_erase_set X k (mt CC p) t o = Ok t' /\
  forall x y, le x y -> (same_seg (keys X t') x y <-> same_seg (keys X t) x y /\ clear_of (cmem o) x y).
Proof.
  intros Ht Ho. pose proof (reach_inv X k HX st o Ho) as Io. pose proof (mreach_inv X k HX CC Hco p t Ht) as It.
  assert (G : forall l d u, mreach p u -> lessw (keys X t) (map nkey d) (keys X u) ->
    exists t', foldM (fun t (n : Tree.node (D X) unit) => m_erase X k (mt CC p) t (nkey n)) u l = Ok t' /\ lessw (keys X t) (map nkey (d ++ l)) (keys X t')).
  { induction l as [|n l IH]; intros d u Ru C; cbn [foldM].
    - exists u. split; auto. rewrite app_nil_r. exact C.
    - destruct (thm_merase_borders X k HX CC Hco p u Ru (nkey n)) as (u1 & E1 & C1). cbn [mt_co mt] in E1 |- *. rewrite E1. cbn [bind].
      destruct (IH (d ++ [n]) u1) as (t' & E & C'); [eapply M_erase; eauto| |exists t'; rewrite <- app_assoc in C'; auto].
      rewrite map_app. cbn [map]. eapply (lessw_snoc X k); eauto. }
  unfold m_erase_set. destruct (common_range_at X k HX o t Io It) as (L & N & R & r & E & EN & BL & BR & H).
  destruct (nodes o) as [|n0 l0] eqn:Eo.
  { exists t. split; auto. intros x y _. split; [|tauto]. intros S. split; auto. intros z _ _ (b & Hb & _). unfold keys in Hb. rewrite Eo in Hb. destruct Hb. }
  cbn [mt_co mt] in E |- *. rewrite E. cbn [bind]. destruct H as [(-> & ->)|(-> & _)].
  - exists t. split; auto. rewrite <- Eo in EN. apply (lessw_common X k HX t o L [] R); auto. apply (lessw_nil X k).
  - rewrite <- Eo in EN. rewrite (range_at X o L N R) by (auto; apply Io). cbn [bind]. destruct (G N [] t Ht (lessw_nil X k _)) as (t' & E' & C). exists t'. split; auto.
    apply (lessw_common X k HX t o L N R); auto.
Qed.
(** erase(map): the parts with equal values *)
Definition losses (t : imap) (d : list node) (u : imap) : Prop :=
  (forall x y, le x y -> (same_seg (keys X u) x y <-> same_seg (keys X t) x y /\
    forall z n, le x z -> le z y -> In n d -> mem (nkey n) z -> at_ t x <> Some (nval n))) /\
  (forall x v, at_ u x = Some v -> at_ t x = Some v).
Lemma losses_snoc p t d u n u' : mreach p u -> losses t d u -> absorbed CC p (nval n) = false -> m_erase_seg X k (mt CC p) u (nkey n) (nval n) = Ok u' -> losses t (d ++ [n]) u'.
Proof.
  intros Ru [L1 L2] Ab E.
  destruct (thm_merase_seg_borders X k HX CC Hco p u Ru (nkey n) (nval n) Ab) as (u1 & E1 & C1). assert (u1 = u') by congruence. subst u1.
  destruct (thm_merase_seg X k HX CC Hco p u Ru (nkey n) (nval n) (or_introl Ab)) as (u1 & E2 & C2). assert (u1 = u') by congruence. subst u1. split.
  - intros x y L. rewrite (C1 x y L), (L1 x y L).
    assert (Q : same_seg (keys X u) x y -> at_ u x = at_ t x).
    { intros S. destruct (at_ u x) as [v|] eqn:Ev; [symmetry; apply L2; exact Ev|]. exfalso. apply (proj2 (at_cmem u x)); auto. destruct S as (b & Hb & M & _). exists b. auto. }
    split.
    + intros [[S F] G]. rewrite Q in G by (apply L1; auto). split; auto. intros z m Z1 Z2 Hm Mm. apply in_app_iff in Hm. destruct Hm as [Hm|[<-|[]]]; [eauto|].
      destruct G as [G|G]; auto. destruct (G z Z1 Z2 Mm).
    + intros [S F]. assert (SF : same_seg (keys X t) x y /\ forall z n, le x z -> le z y -> In n d -> mem (nkey n) z -> at_ t x <> Some (nval n)).
      { split; auto. intros z m Z1 Z2 Hm Mm. apply (F z m); auto. apply in_app_iff. auto. }
      split; auto. rewrite Q by (apply L1; auto).
      assert (Dc : at_ t x = Some (nval n) \/ at_ t x <> Some (nval n)).
      { destruct (at_ t x) as [v|]; [|right; discriminate]. destruct (cc_eq v (nval n)) eqn:Ec; [left; apply Hco in Ec; congruence|right]. intros [= ->]. rewrite (proj2 (Hco _ _)) in Ec; auto; discriminate. }
      destruct Dc as [Dc|Dc]; auto. right. intros z Z1 Z2 Mz. apply (F z n Z1 Z2); auto. apply in_app_iff. cbn. auto.
  - intros x v Ev. destruct (C2 x) as [A B]. destruct (mdec X k (nkey n) x) as [M|M].
    + rewrite (A M) in Ev. apply L2. unfold erase_val in Ev. destruct (at_ u x) as [w|]; [|discriminate]. destruct (cc_eq w (nval n)); [discriminate|exact Ev].
    + rewrite (B M) in Ev. auto.
Qed.
Theorem whole_erase_map p p' t o : mreach p t -> mreach p' o -> (forall s, In s (segs X CC o) -> absorbed CC p (snd s) = false) ->
  exists t', m_erase_map X k (mt CC p) t o = Ok t' /\
  forall x y, le x y -> (same_seg (keys X t') x y <-> same_seg (keys X t) x y /\ forall z, le x z -> le z y -> at_ o z <> at_ t x).
Proof.
  intros Ht Ho Ab. pose proof (mreach_inv X k HX CC Hco p' o Ho) as Io. pose proof (mreach_inv X k HX CC Hco p t Ht) as It.
  assert (Ab' : forall n, In n (nodes o) -> absorbed CC p (nval n) = false). { intros n Hn. apply (Ab (nkey n, nval n)). unfold segs. apply in_map_iff. exists n. auto. }
  assert (G : forall l d u, (forall n, In n l -> In n (nodes o)) -> mreach p u -> losses t d u ->
    exists t', foldM (fun t (n : node) => m_erase_seg X k (mt CC p) t (nkey n) (nval n)) u l = Ok t' /\ losses t (d ++ l) t').
  { induction l as [|n l IH]; intros d u Hl Ru C; cbn [foldM].
    - exists u. split; auto. rewrite app_nil_r. exact C.
    - assert (Hn : In n (nodes o)) by (apply Hl; cbn; auto).
      destruct (thm_merase_seg X k HX CC Hco p u Ru (nkey n) (nval n) (or_introl (Ab' n Hn))) as (u1 & E1 & _). cbn [mt_co mt] in E1 |- *. rewrite E1. cbn [bind].
      destruct (IH (d ++ [n]) u1) as (t' & E & C'); [intros m Hm; apply Hl; cbn; auto|eapply M_erase_seg; eauto| |exists t'; rewrite <- app_assoc in C'; auto].
      eapply losses_snoc; eauto. }
  assert (N0 : losses t [] t). { split; auto. intros x y _. split; [|tauto]. intros S. split; [exact S|]. intros z n _ _ Q. destruct Q. }
  assert (F : forall L N R (u : imap), nodes o = L ++ N ++ R -> befor X k L (nodes t) -> befor X k (nodes t) R -> losses t N u ->
    forall x y, le x y -> (same_seg (keys X u) x y <-> same_seg (keys X t) x y /\ forall z, le x z -> le z y -> at_ o z <> at_ t x)).
  { intros L N R u EN BL BR [L1 _] x y Lxy. rewrite (L1 x y Lxy). split; intros [S H]; split; auto.
    - intros z Z1 Z2 Eq. assert (Tz : inl_ X k (keys X t) z). { destruct S as (b & Hb & Bx & By). exists b. split; auto. exact (mem_conv X k HX b x y z Bx By Z1 Z2). }
      assert (Tx : at_ t x <> None). { apply at_cmem. destruct S as (b & Hb & Bx & _). exists b. auto. }
      destruct (at_ t x) as [v|] eqn:Ev; [|congruence]. apply (at_some X k HX CC) in Eq; auto. destruct Eq as (a & Ha & Ma).
      unfold segs in Ha. apply in_map_iff in Ha. destruct Ha as (n & En & Hn). injection En as <- <-. rewrite EN, !in_app_iff in Hn. destruct Hn as [Hn|[Hn|Hn]].
      + apply (befor_apart X k HX L (nodes t) z BL); [|exact Tz]. exists (nkey n). split; auto. apply in_map. exact Hn.
      + destruct (H z n Z1 Z2 Hn Ma eq_refl).
      + apply (befor_apart X k HX (nodes t) R z BR Tz). exists (nkey n). split; auto. apply in_map. exact Hn.
    - intros z n Z1 Z2 Hn Mn Eq. apply (H z Z1 Z2). rewrite Eq. apply (at_some X k HX CC); auto. exists (nkey n). split; auto. unfold segs. apply in_map_iff. exists n. split; auto.
      rewrite EN, !in_app_iff. auto. }
  unfold m_erase_map. cbn [mt_co mt]. destruct (common_range_at X k HX o t Io It) as (L & N & R & r & E & EN & BL & BR & H).
  destruct (nodes o) as [|n0 l0] eqn:Eo.
  { exists t. split; auto. apply (F [] [] []); auto; intros ? ? ? ?; cbn in *; tauto. }
  cbn [mt_co mt] in E |- *. rewrite E. cbn [bind]. destruct H as [(-> & ->)|(-> & _)].
  - exists t. split; auto. rewrite <- Eo in EN. apply (F L [] R); auto. congruence.
  - rewrite <- Eo in EN. rewrite (range_at X o L N R) by (auto; apply Io). cbn [bind]. destruct (G N [] t) as (t' & E' & C); auto. { intros n Hn. rewrite <- Eo, EN, !in_app_iff. auto. }
    exists t'. split; auto. apply (F L N R); auto. congruence.
Qed.
(** values of absorbing maps *)
Theorem operand_stored p o : mreach p o -> proper CC p -> forall s, In s (segs X CC o) -> absorbed CC p (snd s) = false.
Proof.
  intros Ho P [a v] Hs. cbn [snd]. unfold absorbed. destruct (mp_absorbs p) eqn:Ea; [|reflexivity]. cbn [andb].
  assert (Io : inv k o) by (apply (mreach_inv X k HX CC Hco p o Ho)).
  assert (Na : exists x, mem a x). { apply (inv_ascending X k HX o Io). unfold segs in Hs. apply in_map_iff in Hs. destruct Hs as (n & En & Hn). injection En as <- _. unfold keys. apply in_map. exact Hn. }
  destruct Na as (x & Mx). assert (E : at_ o x = Some v). { apply (at_some X k HX CC); auto. exists a. auto. }
  pose proof (at_nz X k HX CC Hco p o x Ho P Ea) as Nz. destruct (cc_eq v cc_zero) eqn:Ez; [|reflexivity]. apply Hco in Ez. subst v. congruence.
Qed.
(** total maps: & adds both operands, ^ adds the operand and resets the values *)
Theorem whole_and_total p p' t o : mreach p t -> mreach p' o -> mp_style p = MSplit -> mt_total (mt CC p) = true -> proper CC p ->
  (forall s, In s (segs X CC o) -> absorbed CC p (snd s) = false) ->
  exists r, m_and_map X k (mt CC p) t o = Ok r /\ forall x y, le x y -> (same_seg (keys X r) x y <->
    cmem r x /\ (same_seg (keys X t) x y \/ clear_of (cmem t) x y) /\ (same_seg (keys X o) x y \/ clear_of (cmem o) x y)).
Proof.
  intros Ht Ho Hs Tt P Ab. unfold m_and_map, m_add_intersection_map. rewrite Tt.
  assert (R0 : mreach p t_empty) by apply M_clear.
  destruct (whole_add p p t_empty t R0 Ht Hs P (operand_stored p t Ht P)) as (s & E & B).
  destruct (thm_madd_map X k HX CC Hco p p t_empty t R0 Ht P) as (s0 & E0 & V0).
  assert (s0 = s) by (cbn [mt_co mt] in *; congruence). subst s0.
  assert (Rs : mreach p s) by (eapply M_add_map; [exact R0|exact Ht|exact E]).
  assert (C : forall x, cmem s x <-> cmem t x).
  { intros x. rewrite <- !at_cmem, (V0 x). destruct (at_ t x) as [v|] eqn:Ev; [|split; intros Q; exfalso; apply Q; reflexivity].
    unfold add_val, plus_val. replace (absorbed CC p v) with false. { split; discriminate. }
    symmetry. unfold absorbed. destruct (mp_absorbs p) eqn:Ea; [|reflexivity]. cbn [andb]. destruct (cc_eq v cc_zero) eqn:Ez; [|reflexivity].
    apply Hco in Ez. subst v. destruct (at_nz X k HX CC Hco p t x Ht P Ea Ev). }
  assert (S : forall x y, le x y -> (same_seg (keys X s) x y <-> same_seg (keys X t) x y)).
  { intros x y L. rewrite (B x y L), C. split; [intros (A & _ & [Q|Q]); auto; destruct (Q x (le_id X k HX x) L A)|].
    intros Q. split; [exact (seg_in X k _ x y Q)|]. split; auto. right. intros z _ _ (b & [] & _). }
  destruct (whole_add p p' s o Rs Ho Hs P Ab) as (r & E' & B'). exists r. cbn [mt_co mt] in *. rewrite E. cbn [bind]. split; [exact E'|].
  intros x y L. rewrite (B' x y L), (S x y L).
  assert (K : clear_of (cmem s) x y <-> clear_of (cmem t) x y) by (split; intros Q z Z1 Z2 Z3; apply (Q z Z1 Z2); apply C; exact Z3). tauto.
Qed.
Theorem whole_flip_total p p' t o : mreach p t -> mreach p' o -> mp_style p = MSplit -> mt_total (mt CC p) = true -> mt_absorbs (mt CC p) = false -> proper CC p ->
  exists r, m_flip_map X k (mt CC p) t o = Ok r /\ forall x y, le x y -> (same_seg (keys X r) x y <->
    cmem r x /\ (same_seg (keys X t) x y \/ clear_of (cmem t) x y) /\ (same_seg (keys X o) x y \/ clear_of (cmem o) x y)).
Proof.
  intros Ht Ho Hs Tt Ta P. unfold m_flip_map, m_reset_values. rewrite Tt, Ta.
  destruct (whole_add p p' t o Ht Ho Hs P) as (r & E & B). { intros s _. unfold absorbed. cbn in Ta. rewrite Ta. reflexivity. }
  cbn [mt_co mt mt_style] in *. rewrite E. cbn [bind]. rewrite Hs. eexists. split; [reflexivity|].
  match goal with |- context [Tree ?l ?n] => assert (K : keys X (Tree l n) = keys X r) end.
  { unfold keys. cbn [nodes]. rewrite map_map. reflexivity. }
  intros x y L. unfold SetSpec.cmem at 1. rewrite K. apply (B x y L).
Qed.
End WholeMaps.

Section WholeSets.
Context (X : dom) (k : kind) (HX : dom_ok X k).
Notation I := (itv (D X)).
Notation iset := (tree (D X) unit).
Notation mem := (mem X k).
Notation cmem := (SetSpec.cmem X k).
Notation same_seg := (same_seg X k).
Notation clear_of := (clear_of X).
Notation reach := (reach X k).
Notation pt := (pt X).
Notation cltb := (cltb X).
Notation ok := (cut_ok X k).
Ltac cord := cord_ X k HX.

Lemma seg_cut (t : iset) x y : inv k t -> le x y -> (same_seg (keys X t) x y <->
  Rb k (nodes t) (pt x) = true /\ forall c, ok c -> cltb (pt x) c = true -> cltb (pt y) c = false -> intr k (nodes t) c = true).
Proof. intros [_ S] L. unfold keys. apply (same_seg_cut X k HX); auto. Qed.
Lemma seg_flip (l : list I) x y : same_seg l x y -> same_seg l y x.
Proof. intros (a & H). exists a. tauto. Qed.
Lemma intr_R (t : iset) c : intr k (nodes t) c = true -> Rb k (nodes t) c = true /\ Lb k (nodes t) c = true.
Proof. intros H. apply (SetFacts.intr_b X k HX). exact H. Qed.

Theorem whole_s_and st st' t o : reach st t -> reach st' o -> st <> Joining -> exists r, s_and_set X k st t o = Ok r /\
  forall x y, same_seg (keys X r) x y <-> same_seg (keys X t) x y /\ same_seg (keys X o) x y.
Proof.
  intros Ht Ho Hs. pose proof (reach_inv X k HX st t Ht) as It. pose proof (reach_inv X k HX st' o Ho) as Io.
  destruct (and_at X k HX st t o It Io) as (r & E & [Ir _] & P). exists r. split; auto.
  assert (G : forall x y, le x y -> (same_seg (keys X r) x y <-> same_seg (keys X t) x y /\ same_seg (keys X o) x y)).
  { intros x y L. rewrite !seg_cut by auto. destruct (P (pt x)) as (-> & _ & _). rewrite andb_true_iff.
    assert (N : forall c, intr k (nodes r) c = intr k (nodes t) c && intr k (nodes o) c). { intros c. destruct (P c) as (_ & _ & ->). destruct st; [congruence|reflexivity..]. }
    split.
    - intros [[A B] H]. split; split; auto; intros c O1 C1 C2; specialize (H c O1 C1 C2); rewrite N in H; apply andb_true_iff in H; tauto.
    - intros [[A H1] [B H2]]. split; auto. intros c O1 C1 C2. rewrite N, H1, H2; auto. }
  intros x y. destruct (le_total X k HX x y) as [L|L]; [apply G; auto|]. split.
  - intros S. apply seg_flip, G in S; auto. split; apply seg_flip; tauto.
  - intros [S1 S2]. apply seg_flip, G; auto. split; apply seg_flip; auto.
Qed.
Theorem whole_s_sub st st' t o : reach st t -> reach st' o -> exists r, s_subtract_set X k t o = Ok r /\
  forall x y, le x y -> (same_seg (keys X r) x y <-> same_seg (keys X t) x y /\ clear_of (cmem o) x y).
Proof.
  intros Ht Ho. pose proof (reach_inv X k HX st t Ht) as It. pose proof (reach_inv X k HX st' o Ho) as Io.
  assert (G : forall l d u, reach st u -> lessw X k (keys X t) (map nkey d) (keys X u) ->
    exists r, foldM (fun t (n : Tree.node (D X) unit) => s_subtract X k t (nkey n)) u l = Ok r /\ lessw X k (keys X t) (map nkey (d ++ l)) (keys X r)).
  { induction l as [|n l IH]; intros d u Ru C; cbn [foldM].
    - exists u. split; auto. rewrite app_nil_r. exact C.
    - destruct (thm_sub_borders X k HX st u (nkey n) Ru) as (u1 & E1 & C1). rewrite E1. cbn [bind].
      destruct (IH (d ++ [n]) u1) as (r & E & C'); [eapply R_subtract; eauto| |exists r; rewrite <- app_assoc in C'; auto].
      rewrite map_app. cbn [map]. eapply (lessw_snoc X k); eauto. }
  unfold s_subtract_set. destruct (common_range_at X k HX o t Io It) as (L & N & R & r & E & EN & BL & BR & H).
  destruct (nodes o) as [|n0 l0] eqn:Eo.
  { exists t. split; auto. intros x y _. split; [|tauto]. intros S. split; auto. intros z _ _ (b & Hb & _). unfold keys in Hb. rewrite Eo in Hb. destruct Hb. }
  rewrite E. cbn [bind]. destruct H as [(-> & ->)|(-> & _)].
  - exists t. split; auto. rewrite <- Eo in EN. apply (lessw_common X k HX t o L [] R); auto. apply (lessw_nil X k).
  - rewrite <- Eo in EN. rewrite (range_at X o L N R) by (auto; apply Io). cbn [bind]. destruct (G N [] t Ht (lessw_nil X k _)) as (t' & E' & C). exists t'. split; auto.
    apply (lessw_common X k HX t o L N R); auto.
Qed.
Lemma undiv_R (t : iset) x y c : inv k t -> le x y -> (same_seg (keys X t) x y \/ clear_of (cmem t) x y) -> ok c -> cltb (pt x) c = true -> cltb (pt y) c = false ->
  Rb k (nodes t) c = Rb k (nodes t) (pt x).
Proof. intros It L H O1 C1 C2. rewrite !(vr_Rb X k). f_equal. exact (undivided_vr X k HX t x y It L H c O1 C1 C2). Qed.
Theorem whole_s_split st' t o : reach Splitting t -> reach st' o -> exists r, s_add_set X k Splitting t o = Ok r /\
  forall x y, le x y -> (same_seg (keys X r) x y <-> (cmem t x \/ cmem o x) /\
    (same_seg (keys X t) x y \/ clear_of (cmem t) x y) /\ (same_seg (keys X o) x y \/ clear_of (cmem o) x y)).
Proof.
  intros Ht Ho. pose proof (reach_inv X k HX _ t Ht) as It. pose proof (reach_inv X k HX st' o Ho) as Io.
  destruct (plus_at X k HX Splitting t o (reach_sinv X k HX _ t Ht) Io) as (r & E & [Ir _] & P). exists r. split; auto. intros x y L.
  rewrite seg_cut by auto. destruct (P (pt x)) as (-> & _ & _). rewrite orb_true_iff, <- !(cmem_Rb X k HX).
  assert (N : forall c, intr k (nodes r) c = (Lb k (nodes t) c || Lb k (nodes o) c) && (Rb k (nodes t) c || Rb k (nodes o) c) && negb (bord k (nodes t) c) && negb (bord k (nodes o) c)).
  { intros c. destruct (P c) as (_ & _ & ->). reflexivity. }
  split.
  - intros [A H]. split; auto. rewrite !(undivided X k HX) by auto. split; intros c O1 C1 C2; specialize (H c O1 C1 C2); rewrite N, !andb_true_iff, !negb_true_iff in H; tauto.
  - intros (A & U1 & U2). split; auto. intros c O1 C1 C2. pose proof (undiv_R t x y c It L U1 O1 C1 C2) as R1. pose proof (undiv_R o x y c Io L U2 O1 C1 C2) as R2.
    rewrite (undivided X k HX) in U1, U2 by auto. specialize (U1 c O1 C1 C2). specialize (U2 c O1 C1 C2). rewrite N, U1, U2, R1, R2.
    rewrite !(cmem_Rb X k HX) in A. unfold bord in U1, U2. rewrite R1 in U1. rewrite R2 in U2.
    assert (Q1 : intr k (nodes t) c = true -> Lb k (nodes t) c = true) by (intros Q; apply intr_R in Q; tauto).
    assert (Q2 : intr k (nodes o) c = true -> Lb k (nodes o) c = true) by (intros Q; apply intr_R in Q; tauto).
    destruct (Rb k (nodes t) (pt x)), (Rb k (nodes o) (pt x)), (intr k (nodes t) c), (intr k (nodes o) c), (Lb k (nodes t) c), (Lb k (nodes o) c); cbn in *; intuition congruence.
Qed.
(** separate sets: chains of intervals that share elements *)
Definition linked (K P : list I) : D X -> D X -> Prop := clos_trans (D X) (fun x y => same_seg K x y \/ same_seg P x y).
Lemma linked_mono K P P' x y : (forall u v, same_seg P u v -> same_seg P' u v) -> linked K P x y -> linked K P' x y.
Proof.
  intros H L. induction L as [x y [S|S]|x y z _ IH1 _ IH2]; [apply t_step; auto|apply t_step; auto|eapply t_trans; eauto].
Qed.
Lemma hint_sep t h a : reach Separating t -> hint_ok X t h -> (exists x, mem a x) -> exists t' h', s_add_hint X k Separating t h a = Ok (t', h') /\ reach Separating t' /\ hint_ok X t' h' /\
  forall x y, same_seg (keys X t') x y <-> same_seg (keys X t) x y \/ (hits X k t a x /\ hits X k t a y).
Proof.
  intros Ht Hh Na. destruct (thm_hint X k HX Separating t h a Ht Hh) as (t1 & t2 & i1 & i2 & E1 & E2 & Q).
  pose proof (R_add X k Separating t a t1 i1 Ht E1) as R1. pose proof (R_add_hint X k Separating t h a t2 i2 Ht Hh E2) as R2. exists t2, i2. split; auto. split; auto. split.
  { destruct (s_add_hint_at X k HX Separating t h a) as (u & i & E3 & _ & Vi & _); [apply (reach_sinv X k HX); auto|apply hint_isit; auto|apply (ne_ex X k HX); auto|].
    rewrite E3 in E2. injection E2 as <- <-. apply hint_isit. exact Vi. }
  pose proof (proj1 (thm_equal_segs X k HX Separating Separating t1 t2 R1 R2) Q) as S.
  destruct (thm_sep_borders X k HX t a Ht Na) as (u & i & E3 & C). assert (u = t1) by congruence. subst u.
  intros x y. rewrite <- (S x y), (C x y), !(hits_reaches X k). reflexivity.
Qed.
Theorem whole_s_sep st' t o : reach Separating t -> reach st' o -> exists r, s_add_set X k Separating t o = Ok r /\
  forall x y, same_seg (keys X r) x y <-> linked (keys X t) (keys X o) x y.
Proof.
  intros Ht Ho. pose proof (reach_inv X k HX st' o Ho) as Io.
  assert (G : forall l d u h, nodes o = d ++ l -> reach Separating u -> hint_ok X u h -> (forall x y, same_seg (keys X u) x y <-> linked (keys X t) (map nkey d) x y) ->
    exists r h', foldM (fun '(t, prior_) n => s_add_hint X k Separating t prior_ (nkey n)) (u, h) l = Ok (r, h') /\ forall x y, same_seg (keys X r) x y <-> linked (keys X t) (keys X o) x y).
  { induction l as [|n l IH]; intros d u h E Ru Hh C; cbn [foldM].
    - exists u, h. split; auto. intros x y. rewrite (C x y). unfold keys. rewrite E, app_nil_r. reflexivity.
    - assert (Hn : In n (nodes o)) by (rewrite E; apply in_app_iff; cbn; auto).
      destruct (hint_sep u h (nkey n) Ru Hh) as (u1 & h1 & E1 & R1 & H1 & C1). { apply (inv_ascending X k HX o Io). unfold keys. apply in_map. exact Hn. }
      rewrite E1. cbn [bind]. apply (IH (d ++ [n])); auto; [rewrite <- app_assoc; exact E|]. rewrite map_app. cbn [map].
      assert (M1 : forall x y, linked (keys X t) (map nkey d) x y -> linked (keys X t) (map nkey d ++ [nkey n]) x y).
      { intros x y. apply linked_mono. intros a b S. apply seg_snoc. auto. }
      assert (Tr : forall x y z, same_seg (keys X u1) x y -> same_seg (keys X u1) y z -> same_seg (keys X u1) x z).
      { intros x y z. apply (seg_trans X k HX u1). apply (reach_inv X k HX _ u1 R1). }
      intros x y. split.
      + rewrite (C1 x y). intros [S|[Hx Hy]]. { apply M1, C, S. }
        assert (A : forall q, hits X k u (nkey n) q -> exists w, mem (nkey n) w /\ (q = w \/ (linked (keys X t) (map nkey d ++ [nkey n]) q w /\ linked (keys X t) (map nkey d ++ [nkey n]) w q))).
        { intros q [Mq|(w & Sw & Mw)]; [exists q; auto|]. exists w. split; auto. right. split; apply M1, C; auto. apply seg_flip. exact Sw. }
        destruct (A x Hx) as (w & Mw & Qw), (A y Hy) as (w' & Mw' & Qw').
        assert (B : linked (keys X t) (map nkey d ++ [nkey n]) w w'). { apply t_step. right. apply seg_snoc. auto. }
        assert (B1 : linked (keys X t) (map nkey d ++ [nkey n]) x w'). { destruct Qw as [->|[Q _]]; [exact B|]. eapply t_trans; eauto. }
        destruct Qw' as [->|[_ Q]]; [exact B1|]. eapply t_trans; eauto.
      + intros L. induction L as [x y S|x y z _ IH1 _ IH2]; [|exact (Tr x y z IH1 IH2)]. rewrite seg_snoc in S. apply (C1 x y). destruct S as [S|[S|[Mx My]]].
        * left. apply C. apply t_step. auto.
        * left. apply C. apply t_step. auto.
        * right. split; left; auto. }
  destruct (G (nodes o) [] t (end_ t) eq_refl Ht Logic.I) as (r & h' & E & C).
  { cbn [map]. intros x y. split; [intros S; apply t_step; auto|]. intros L. induction L as [x y [S|(a & [] & _)]|x y z _ IH1 _ IH2]; auto.
    apply (seg_trans X k HX t x y z); auto. apply (reach_inv X k HX _ t Ht). }
  exists r. split; [exact (f_equal (fun r => bind r (fun '(t, _) => Ok t)) E)|exact C].
Qed.
(** ^= of separate and split sets *)
Lemma xor_half (a b : iset) x y : inv k a -> le x y -> Rb k (nodes a) (pt x) = true ->
  (forall c, ok c -> cltb (pt x) c = true -> cltb (pt y) c = false ->
     (intr k (nodes a) c && negb (Lb k (nodes b) c || Rb k (nodes b) c)) || (intr k (nodes b) c && negb (Lb k (nodes a) c || Rb k (nodes a) c)) = true) ->
  same_seg (keys X a) x y /\ forall c, ok c -> cltb (pt x) c = true -> cltb (pt y) c = false -> Rb k (nodes b) c = false.
Proof.
  intros Ia L Rx H. pose proof (proj1 (Rb_mem X k HX (nodes a) x) Rx) as (n & Hn & Mx). pose proof L as L'. rewrite (le_pt X) in L'.
  assert (My : inr k (nkey n) (pt y) = true).
  { rewrite (mem_inr X k HX) in Mx. unfold inr in *. apply andb_true_iff in Mx. destruct Mx as [A B]. apply andb_true_iff. split; [rewrite negb_true_iff in *; cord|].
    destruct (cltb (pt y) (uc X k (nkey n))) eqn:F; auto. exfalso.
    specialize (H (uc X k (nkey n)) (uc_ok X k _) B F).
    destruct (intr_ends X k HX (nodes a) n (proj2 Ia) Hn) as (_ & Iu & _ & Lu). rewrite Iu, Lu in H. cbn in H. rewrite andb_false_r in H. discriminate. }
  split. { exists (nkey n). split; [unfold keys; apply in_map; exact Hn|]. split; auto. apply (mem_inr X k HX). exact My. }
  intros c O1 C1 C2. specialize (H c O1 C1 C2). destruct (Rb k (nodes b) c) eqn:Rc; auto. rewrite orb_true_r in H. cbn in H. rewrite andb_false_r in H. cbn in H.
  assert (Ra : Rb k (nodes a) c = true). { apply (Rb_iff X k). exists n. split; auto. rewrite (mem_inr X k HX) in Mx. unfold inr in *. cord. }
  rewrite Ra, orb_true_r, andb_false_r in H. discriminate.
Qed.
Theorem whole_s_xor st st' t o : reach st t -> reach st' o -> st <> Joining -> exists r, s_flip_set X k st t o = Ok r /\
  forall x y, le x y -> (same_seg (keys X r) x y <-> (same_seg (keys X t) x y /\ clear_of (cmem o) x y) \/ (same_seg (keys X o) x y /\ clear_of (cmem t) x y)).
Proof.
  intros Ht Ho Hs. pose proof (reach_inv X k HX st t Ht) as It. pose proof (reach_inv X k HX st' o Ho) as Io.
  destruct (xor_at X k HX st t o (reach_sinv X k HX st t Ht) Io) as (r & E & [Ir _] & P). exists r. split; auto. intros x y L.
  rewrite (seg_cut r) by auto. destruct (P (pt x)) as (-> & _ & _).
  assert (N : forall c, intr k (nodes r) c = (intr k (nodes t) c && negb (Lb k (nodes o) c || Rb k (nodes o) c)) || (intr k (nodes o) c && negb (Lb k (nodes t) c || Rb k (nodes t) c))).
  { intros c. destruct (P c) as (_ & _ & ->). destruct st; [congruence|reflexivity..]. }
  assert (CL : forall b : iset, Rb k (nodes b) (pt x) = false -> (forall c, ok c -> cltb (pt x) c = true -> cltb (pt y) c = false -> Rb k (nodes b) c = false) -> clear_of (cmem b) x y).
  { intros b B0 B z L1 L2 Hz. apply (cmem_Rb X k HX) in Hz. apply (Rb_mem X k HX) in Hz. destruct Hz as (n & Hn & M).
    rewrite (le_pt X) in L1, L2. rewrite (mem_inr X k HX) in M. unfold inr in M. apply andb_true_iff in M. destruct M as [M1 M2]. rewrite negb_true_iff in M1.
    destruct (cltb (pt x) (lc X k (nkey n))) eqn:F.
    - assert (Q : Rb k (nodes b) (lc X k (nkey n)) = false). { apply B; [apply lc_ok|exact F|cord]. }
      rewrite (proj2 (Rb_iff X k (nodes b) (lc X k (nkey n)))) in Q; [discriminate|]. exists n. split; auto. unfold inr. cord.
    - rewrite (proj2 (Rb_mem X k HX (nodes b) x)) in B0; [discriminate|]. exists n. split; auto. rewrite (mem_inr X k HX). unfold inr. cord. }
  assert (CB : forall (a b : iset), inv k a -> inv k b -> same_seg (keys X a) x y -> clear_of (cmem b) x y ->
    xorb (Rb k (nodes a) (pt x)) (Rb k (nodes b) (pt x)) = true /\
    forall c, ok c -> cltb (pt x) c = true -> cltb (pt y) c = false -> intr k (nodes a) c && negb (Lb k (nodes b) c || Rb k (nodes b) c) = true).
  { intros a b Ia Ib S C. apply seg_cut in S; auto. destruct S as [A H].
    assert (B0 : Rb k (nodes b) (pt x) = false). { destruct (Rb k (nodes b) (pt x)) eqn:Q; auto. apply (cmem_Rb X k HX) in Q. destruct (C x (le_id X k HX x) L Q). }
    rewrite A, B0. split; auto. intros c O1 C1 C2. rewrite (H c O1 C1 C2). cbn.
    assert (Rc : Rb k (nodes b) c = false). { rewrite (undiv_R b x y c Ib L (or_intror C) O1 C1 C2). exact B0. }
    assert (Bc : bord k (nodes b) c = false). { apply (proj1 (undivided X k HX b x y Ib L)); auto. }
    unfold bord in Bc. rewrite Rc in *. rewrite orb_false_r in *. destruct (intr k (nodes b) c) eqn:Ic; [apply intr_R in Ic; destruct Ic; congruence|].
    cbn in Bc. rewrite andb_true_r in Bc. rewrite Bc. reflexivity. }
  split.
  - intros [A H]. assert (H' : forall c, ok c -> cltb (pt x) c = true -> cltb (pt y) c = false ->
      (intr k (nodes t) c && negb (Lb k (nodes o) c || Rb k (nodes o) c)) || (intr k (nodes o) c && negb (Lb k (nodes t) c || Rb k (nodes t) c)) = true).
    { intros c O1 C1 C2. rewrite <- N. auto. }
    destruct (Rb k (nodes t) (pt x)) eqn:Rt.
    + left. destruct (xor_half t o x y It L Rt H') as [S B]. split; auto. apply CL; auto. destruct (Rb k (nodes o) (pt x)); [discriminate|reflexivity].
    + right. assert (Ro : Rb k (nodes o) (pt x) = true) by (destruct (Rb k (nodes o) (pt x)); [reflexivity|discriminate]).
      destruct (xor_half o t x y Io L Ro) as [S B]. { intros c O1 C1 C2. rewrite orb_comm. auto. } split; auto.
  - intros [[S C]|[S C]].
    + destruct (CB t o It Io S C) as [A H]. split; auto. intros c O1 C1 C2. rewrite N, (H c O1 C1 C2). reflexivity.
    + destruct (CB o t Io It S C) as [A H]. split; [rewrite xorb_comm; exact A|]. intros c O1 C1 C2. rewrite N, (H c O1 C1 C2). apply orb_true_r.
Qed.
(** insert(set) is += *)
Theorem whole_s_insert st st' t o : reach st t -> reach st' o -> exists r r', s_insert_set X k st t o = Ok r /\ s_add_set X k st t o = Ok r' /\ s_eqb X k r r' = true.
Proof.
  intros Ht Ho. pose proof (reach_sinv X k HX st t Ht) as Hs.
  destruct (s_insert_set_at X k HX st t o Hs) as (t1 & E1 & S1 & P1 & Q1). destruct (s_add_set_at X k HX st t o Hs) as (t2 & E2 & S2 & P2 & Q2).
  exists t1, t2. split; auto. split; auto. apply (s_eqb_at X k HX); [apply S1|apply S2|]. intros c _.
  destruct (P1 c) as [R1 L1]. destruct (P2 c) as [R2 L2]. split; [congruence|]. destruct st.
  - rewrite (proj1 (joined_b X k HX _ (proj2 (proj1 S1))) (proj2 S1)), (proj1 (joined_b X k HX _ (proj2 (proj1 S2))) (proj2 S2)). congruence.
  - rewrite (Q1 c), (Q2 c). reflexivity.
  - rewrite (Q1 c), (Q2 c), R1, R2, L1, L2. reflexivity.
Qed.
End WholeSets.
