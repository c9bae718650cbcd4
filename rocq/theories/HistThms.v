(** Proofs about histories of additions and subtractions (C79, C80). *)
From Verif Require Import HistSpec IterThms LookThms SetThms SetProps MapThms MapThms3 MapBorders MapReach MapInst.
From Verif Require Import MapModel.
From Coq Require Import Sorted ZArith Lia.

(* ------------------------------------------------------------ permutations, in general *)
Section Perm.
Context {S A : Type} (P : S -> Prop) (R : S -> S -> Prop) (step : S -> A -> res S).
Context (Rrefl : forall t, P t -> R t t) (Rtrans : forall t u w, R t u -> R u w -> R t w).
Context (tot : forall t a, P t -> exists t', step t a = Ok t' /\ P t').
Context (cong : forall t u a t' u', P t -> P u -> R t u -> step t a = Ok t' -> step u a = Ok u' -> R t' u').
Context (swap : forall t a b t1 t2 u1 u2, P t -> step t a = Ok t1 -> step t1 b = Ok t2 -> step t b = Ok u1 -> step u1 a = Ok u2 -> R t2 u2).

Lemma fold_tot l : forall t, P t -> exists t', foldM step t l = Ok t' /\ P t'.
Proof.
  induction l as [|a l IH]; intros t H; cbn [foldM]; [eauto|].
  destruct (tot t a H) as (t1 & E & H1). rewrite E. cbn [bind]. apply IH. exact H1.
Qed.
Lemma fold_cong l : forall t u t' u', P t -> P u -> R t u -> foldM step t l = Ok t' -> foldM step u l = Ok u' -> R t' u'.
Proof.
  induction l as [|a l IH]; intros t u t' u' Ht Hu HR Et Eu; cbn [foldM] in *. { injection Et as <-. injection Eu as <-. exact HR. }
  destruct (tot t a Ht) as (t1 & E1 & H1). destruct (tot u a Hu) as (u1 & E2 & H2). rewrite E1 in Et. rewrite E2 in Eu. cbn [bind] in *.
  eapply (IH t1 u1); eauto.
Qed.
Lemma perm_fold l l' : Permutation l l' -> forall t, P t -> exists t' u', foldM step t l = Ok t' /\ foldM step t l' = Ok u' /\ P t' /\ P u' /\ R t' u'.
Proof.
  intros H. induction H as [|a l l' H IH|a b l|l l1 l' H1 IH1 H2 IH2]; intros t Ht.
  - exists t, t. cbn [foldM]. auto 8.
  - cbn [foldM]. destruct (tot t a Ht) as (t1 & E & H1). rewrite E. cbn [bind]. apply IH. exact H1.
  - cbn [foldM]. destruct (tot t a Ht) as (t1 & E1 & H1). destruct (tot t1 b H1) as (t2 & E2 & H2).
    destruct (tot t b Ht) as (u1 & F1 & G1). destruct (tot u1 a G1) as (u2 & F2 & G2).
    rewrite E1, F1. cbn [bind]. rewrite E2, F2. cbn [bind].
    destruct (fold_tot l t2 H2) as (t' & E & H'). destruct (fold_tot l u2 G2) as (u' & F & G').
    exists u', t'. split; auto. split; auto. split; auto. split; auto.
    eapply (fold_cong l u2 t2); eauto.
  - destruct (IH1 t Ht) as (t1 & u1 & E1 & F1 & P1 & Q1 & R1). destruct (IH2 t Ht) as (t2 & u2 & E2 & F2 & P2 & Q2 & R2).
    exists t1, u2. rewrite F1 in E2. injection E2 as <-. eauto 8.
Qed.
End Perm.

Section HistThms.
Context (X : dom) (k : kind).
Context (HX : dom_ok X k).
Notation I := (itv (D X)).
Notation sset := (tree (D X) unit).
Notation mem := (mem X k).
Notation cmem := (cmem X k).
Notation same_seg := (same_seg X k).
Notation reach := (reach X k).
Notation clear_of := (clear_of X).

Lemma le_self (x : D X) : le x x. Proof. unfold le. apply ltb_irrefl with k; auto. Qed.
Lemma le_or (x y : D X) : le x y \/ le y x.
Proof. unfold le. destruct (ltb y x) eqn:E; auto. right. destruct (ltb x y) eqn:F; auto. exfalso. pose proof (proj1 (proj2 (proj1 HX)) _ _ _ E F) as Q. rewrite (ltb_irrefl X k HX) in Q. discriminate. Qed.

(* ------------------------------------------------------------ sets: what a history leaves *)
Lemma hist_set st l : forall t, reach st t -> exists t', s_history X k st t l = Ok t' /\ reach st t' /\
  forall x, cmem t' x <-> match last_at X k l x with Some b => b = true | None => cmem t x end.
Proof.
  assert (G : forall x l o, fold_left (fun o s => if memb X k (snd s) x then Some (fst s) else o) l o =
                           match last_at X k l x with Some b => Some b | None => o end).
  { intros x l0. induction l0 as [|s l0 IH] using rev_ind; intros o; [reflexivity|].
    unfold last_at. rewrite !fold_left_app. cbn [fold_left]. destruct (memb X k (snd s) x); [reflexivity|]. rewrite IH. reflexivity. }
  induction l as [|[b a] l IH]; intros t H. { exists t. split; [reflexivity|]. split; auto. intros x. reflexivity. }
  unfold s_history. cbn [foldM fst snd].
  assert (Q : exists t1, (if b then ' (t0, _) <- s_add X k st t a ;; Ok t0 else s_subtract X k t a) = Ok t1 /\ reach st t1 /\
    forall x, cmem t1 x <-> if memb X k a x then b = true else cmem t x).
  { destruct b.
    - destruct (thm_add X k HX st t a H) as (t1 & it & E & C). rewrite E. cbn [bind]. exists t1. split; auto. split. { eapply R_add; eauto. }
      intros x. rewrite C. pose proof (memb_mem X k a x) as M. destruct (memb X k a x); intuition congruence.
    - destruct (thm_subtract X k HX st t a H) as (t1 & E & C). exists t1. split; auto. split. { eapply R_subtract; eauto. }
      intros x. rewrite C. pose proof (memb_mem X k a x) as M. destruct (memb X k a x); intuition congruence. }
  destruct Q as (t1 & E & H1 & C1). rewrite E. cbn [bind]. destruct (IH t1 H1) as (t' & E' & H' & C'). exists t'. split; [exact E'|]. split; auto.
  intros x. rewrite C'. pose proof (G x l (if memb X k a x then Some b else None)) as Q.
  change (last_at X k ((b, a) :: l) x = match last_at X k l x with Some b0 => Some b0 | None => if memb X k a x then Some b else None end) in Q. rewrite Q.
  destruct (last_at X k l x); [reflexivity|]. rewrite C1. destruct (memb X k a x); reflexivity.
Qed.

(* ------------------------------------------------------------ sets: the order does not matter *)
Lemma seg_self (l : list I) x : same_seg l x x <-> exists a, In a l /\ mem a x.
Proof. split; intros (a & H); exists a; tauto. Qed.
Lemma seg_trans t x y z : inv (V := unit) k t -> same_seg (keys X t) x y -> same_seg (keys X t) y z -> same_seg (keys X t) x z.
Proof.
  intros H (a & Ha & Ax & Ay) (b & Hb & By & Bz). assert (Q : a = b).
  { destruct (inv_ascending X k HX t H) as [_ S]. revert Ha Hb. generalize dependent (keys X t). intros l S.
    assert (G : forall c, ~ lt (X := X) c c) by (intros c; unfold lt; rewrite (ltb_irrefl X k HX); discriminate).
    induction S as [|c l S IH Hl]; intros Ha Hb; [destruct Ha|]. rewrite Forall_forall in Hl.
    destruct Ha as [<-|Ha], Hb as [<-|Hb]; auto; exfalso.
    - exact (G y (Hl b Hb y y Ay By)).
    - exact (G y (Hl a Ha y y By Ay)). }
  subst b. exists a. auto.
Qed.
Lemma seg_sym (l : list I) x y : same_seg l x y -> same_seg l y x.
Proof. intros (a & H). exists a. tauto. Qed.

Definition add1 st (t : sset) (a : I) : res sset := ' (t, _) <- s_add X k st t a ;; Ok t.
Definition sseq (t u : sset) : Prop := forall x y, same_seg (keys X t) x y <-> same_seg (keys X u) x y.
Definition cseq (t u : sset) : Prop := forall x, cmem t x <-> cmem u x.

Lemma add1_tot st t a : reach st t -> exists t', add1 st t a = Ok t' /\ reach st t'.
Proof.
  intros H. destruct (thm_add X k HX st t a H) as (t1 & it & E & C). exists t1. unfold add1. rewrite E. split; [reflexivity|]. eapply R_add; eauto.
Qed.
Lemma add1_mem st t a t' : reach st t -> add1 st t a = Ok t' -> forall x, cmem t' x <-> cmem t x \/ mem a x.
Proof.
  intros H. destruct (thm_add X k HX st t a H) as (t1 & it & E & C). unfold add1. rewrite E. cbn [bind]. intros Q. injection Q as <-. exact C.
Qed.
Lemma add1_empty st t a t' : (forall x, ~ mem a x) -> add1 st t a = Ok t' -> t' = t.
Proof. intros H. unfold add1. rewrite s_add_empty by (apply (em_ex X k HX); auto). cbn [bind]. congruence. Qed.
Lemma mem_dec a : (exists x, mem a x) \/ (forall x, ~ mem a x).
Proof. destruct (is_empty X k a) eqn:E; [right; intros x; apply (empty_no_point X k HX); exact E|left; apply (nonempty_point X k HX); exact E]. Qed.
(** separate_interval_set, through same_seg only *)
Definition hits (t : sset) (a : I) (x : D X) : Prop := mem a x \/ exists w, same_seg (keys X t) x w /\ mem a w.
Lemma hits_reaches t a x : reaches X k t a x <-> hits t a x.
Proof.
  unfold reaches, hits. split; (intros [H|H]; [left; exact H|right]).
  - destruct H as (b & Hb & Mx & w & Mw & Aw). exists w. split; auto. exists b. auto.
  - destruct H as (w & (b & Hb & Mx & Mw) & Aw). exists b. split; auto. split; auto. exists w. auto.
Qed.
Lemma add1_sep t a t' : reach Separating t -> add1 Separating t a = Ok t' ->
  forall x y, same_seg (keys X t') x y <-> same_seg (keys X t) x y \/ (hits t a x /\ hits t a y).
Proof.
  intros H E x y. destruct (mem_dec a) as [N|N].
  - destruct (thm_sep_borders X k HX t a H N) as (t1 & it & E1 & C). unfold add1 in E. rewrite E1 in E. cbn [bind] in E. injection E as <-.
    rewrite C, !hits_reaches. reflexivity.
  - apply (add1_empty _ _ _ _ N) in E. subst t'. split; auto. intros [Q|[[Q|(w & _ & Q)] _]]; auto; destruct (N _ Q).
Qed.
Lemma add1_split t a t' : reach Splitting t -> add1 Splitting t a = Ok t' ->
  forall x y, le x y -> (same_seg (keys X t') x y <->
    (cmem t x \/ mem a x) /\ (same_seg (keys X t) x y \/ clear_of (cmem t) x y) /\ ((mem a x /\ mem a y) \/ clear_of (mem a) x y)).
Proof.
  intros H E x y L. destruct (mem_dec a) as [N|N].
  - destruct (thm_split_borders X k HX t a H N) as (t1 & it & E1 & C). unfold add1 in E. rewrite E1 in E. cbn [bind] in E. injection E as <-. apply C. exact L.
  - apply (add1_empty _ _ _ _ N) in E. subst t'. split.
    + intros S. split; [|split; [left; exact S|right; intros z _ _; apply N]]. left. destruct S as (b & Hb & Mx & _). exists b. auto.
    + intros ([C|C] & [S|S] & _); auto; [|destruct (N _ C)..]. destruct (S x (le_self x) L C).
Qed.
Lemma sseq_le t u : (forall x y, le x y -> (same_seg (keys X t) x y <-> same_seg (keys X u) x y)) -> sseq t u.
Proof.
  intros H x y. destruct (le_or x y) as [L|L]; [apply H; exact L|]. split; intros S; apply seg_sym; apply H; auto; apply seg_sym; exact S.
Qed.
Lemma sseq_cseq t u : sseq t u -> cseq t u.
Proof. intros H x. unfold SetSpec.cmem. rewrite <- !seg_self. apply H. Qed.
Lemma clear_ext (P Q : D X -> Prop) x y : (forall z, P z <-> Q z) -> (clear_of P x y <-> clear_of Q x y).
Proof. intros H. unfold SetSpec.clear_of. split; intros C z L1 L2 N; apply (C z L1 L2), H, N. Qed.
Lemma clear_or (P Q R : D X -> Prop) x y : (forall z, P z <-> Q z \/ R z) -> (clear_of P x y <-> clear_of Q x y /\ clear_of R x y).
Proof.
  intros H. unfold SetSpec.clear_of. split.
  - intros C. split; intros z L1 L2 N; apply (C z L1 L2), H; auto.
  - intros [C1 C2] z L1 L2 N. apply H in N. destruct N; [eapply C1|eapply C2]; eauto.
Qed.

(* joining *)
Lemma join_perm l l' t : Permutation l l' -> reach Joining t ->
  exists t' u', foldM (add1 Joining) t l = Ok t' /\ foldM (add1 Joining) t l' = Ok u' /\ reach Joining t' /\ reach Joining u' /\ cseq t' u'.
Proof.
  intros Hp H. apply (perm_fold (reach Joining) cseq (add1 Joining)); auto.
  - intros t0 _ x. reflexivity.
  - intros a b c H1 H2 x. rewrite (H1 x). apply H2.
  - apply add1_tot.
  - intros t0 u a t' u' Ht Hu R Et Eu x. rewrite (add1_mem _ _ _ _ Ht Et), (add1_mem _ _ _ _ Hu Eu), (R x). reflexivity.
  - intros t0 a b t1 t2 u1 u2 Ht E1 E2 F1 F2 x.
    assert (H1 : reach Joining t1). { destruct (add1_tot _ t0 a Ht) as (q & Eq & Hq). congruence. }
    assert (G1 : reach Joining u1). { destruct (add1_tot _ t0 b Ht) as (q & Eq & Hq). congruence. }
    rewrite (add1_mem _ _ _ _ H1 E2), (add1_mem _ _ _ _ Ht E1), (add1_mem _ _ _ _ G1 F2), (add1_mem _ _ _ _ Ht F1). tauto.
Qed.
(* separating *)
Lemma hits_cong t u a x : sseq t u -> (hits t a x <-> hits u a x).
Proof. intros R. unfold hits. split; (intros [H|(w & H & M)]; [auto|right; exists w; split; auto; apply R; auto]). Qed.
Lemma sep_half (t : sset) a b (t1 t2 u1 u2 : sset) : inv k t ->
  (forall x y, same_seg (keys X t1) x y <-> same_seg (keys X t) x y \/ (hits t a x /\ hits t a y)) ->
  (forall x y, same_seg (keys X t2) x y <-> same_seg (keys X t1) x y \/ (hits t1 b x /\ hits t1 b y)) ->
  (forall x y, same_seg (keys X u1) x y <-> same_seg (keys X t) x y \/ (hits t b x /\ hits t b y)) ->
  (forall x y, same_seg (keys X u2) x y <-> same_seg (keys X u1) x y \/ (hits u1 a x /\ hits u1 a y)) ->
  forall x y, same_seg (keys X t2) x y -> same_seg (keys X u2) x y.
Proof.
  intros Hi C1 C2 D1 D2.
  (* hits is closed under sharing a segment *)
  assert (HT : forall c x y, hits t c y -> same_seg (keys X t) x y -> hits t c x).
  { intros c x y [M|(w & S & M)] Q; right; [exists y; auto|exists w; split; auto]. eapply seg_trans; eauto. }
  assert (HU : forall c x, hits t c x -> hits u1 c x).
  { intros c x [M|(w & S & M)]; [left; exact M|right; exists w; split; auto; apply D1; auto]. }
  (* an element that t1 brings to b is brought by u1 to b or, through a, to a *)
  assert (B : forall x, hits t1 b x -> hits t b x \/ (hits t a x /\ exists w, hits t a w /\ mem b w)).
  { intros x [M|(w & S & M)]; [left; left; exact M|]. apply C1 in S. destruct S as [S|[S1 S2]]; [left; right; exists w; auto|right; split; auto; exists w; auto]. }
  intros x y S. apply C2 in S. apply D2. destruct S as [S|[S1 S2]].
  - apply C1 in S. destruct S as [S|[S1 S2]]; [left; apply D1; auto|right; auto].
  - apply B in S1. apply B in S2.
    assert (K : forall z, hits t b z -> (exists w, hits t a w /\ mem b w) -> hits u1 a z).
    { intros z Hz (w & [Aw|(v & Sv & Av)] & Bw).
      - right. exists w. split; auto. apply D1. right. split; auto. left. exact Bw.
      - right. exists v. split; auto. apply D1. right. split; auto. right. exists w. split; auto. apply seg_sym. exact Sv. }
    destruct S1 as [S1|[S1 W1]], S2 as [S2|[S2 W2]].
    + left. apply D1. auto.
    + right. split; auto.
    + right. split; auto.
    + right. split; auto.
Qed.
Lemma sep_perm l l' t : Permutation l l' -> reach Separating t ->
  exists t' u', foldM (add1 Separating) t l = Ok t' /\ foldM (add1 Separating) t l' = Ok u' /\ reach Separating t' /\ reach Separating u' /\ sseq t' u'.
Proof.
  intros Hp H. apply (perm_fold (reach Separating) sseq (add1 Separating)); auto.
  - intros t0 _ x y. reflexivity.
  - intros a b c H1 H2 x y. rewrite (H1 x y). apply H2.
  - apply add1_tot.
  - intros t0 u a t' u' Ht Hu R Et Eu x y. rewrite (add1_sep _ _ _ Ht Et), (add1_sep _ _ _ Hu Eu), (R x y), !(hits_cong t0 u a _ R). reflexivity.
  - intros t0 a b t1 t2 u1 u2 Ht E1 E2 F1 F2.
    assert (H1 : reach Separating t1). { destruct (add1_tot _ t0 a Ht) as (q & Eq & Hq). congruence. }
    assert (G1 : reach Separating u1). { destruct (add1_tot _ t0 b Ht) as (q & Eq & Hq). congruence. }
    pose proof (reach_inv X k HX _ _ Ht) as Hi.
    pose proof (add1_sep _ _ _ Ht E1). pose proof (add1_sep _ _ _ H1 E2). pose proof (add1_sep _ _ _ Ht F1). pose proof (add1_sep _ _ _ G1 F2).
    intros x y. split.
    + eapply (sep_half t0 a b t1 t2 u1 u2); eauto.
    + eapply (sep_half t0 b a u1 u2 t1 t2); eauto.
Qed.
(* splitting *)
Lemma split_swap {V} (ct c1 : D X -> Prop) (S S1 S2 : D X -> D X -> Prop) (a b : I) : (V -> V) ->
  (forall x, S x x <-> ct x) ->
  (forall x y, S x y -> ct x) ->
  (forall x, c1 x <-> ct x \/ mem a x) ->
  (forall x y, le x y -> (S1 x y <-> (ct x \/ mem a x) /\ (S x y \/ clear_of ct x y) /\ ((mem a x /\ mem a y) \/ clear_of (mem a) x y))) ->
  (forall x y, le x y -> (S2 x y <-> (c1 x \/ mem b x) /\ (S1 x y \/ clear_of c1 x y) /\ ((mem b x /\ mem b y) \/ clear_of (mem b) x y))) ->
  forall x y, le x y -> (S2 x y <-> (ct x \/ mem a x \/ mem b x) /\ (S x y \/ clear_of ct x y) /\
    ((mem a x /\ mem a y) \/ clear_of (mem a) x y) /\ ((mem b x /\ mem b y) \/ clear_of (mem b) x y)).
Proof.
  intros _ Sr Sl C1 E1 E2 x y L. rewrite (E2 x y L), (E1 x y L), (C1 x), (clear_or c1 ct (mem a) x y C1).
  assert (N : forall Q : D X -> Prop, clear_of Q x y -> ~ Q x) by (intros Q H; apply H; [apply le_self|exact L]).
  split; [tauto|]. intros (Hx & HS & HA & HB). split; [tauto|]. split; [|exact HB].
  destruct HS as [HS|HS].
  - left. split; [left; eapply Sl; eauto|]. tauto.
  - destruct HA as [HA|HA]; [left; tauto|right; tauto].
Qed.
Lemma split_perm l l' t : Permutation l l' -> reach Splitting t ->
  exists t' u', foldM (add1 Splitting) t l = Ok t' /\ foldM (add1 Splitting) t l' = Ok u' /\ reach Splitting t' /\ reach Splitting u' /\ sseq t' u'.
Proof.
  intros Hp H. apply (perm_fold (reach Splitting) sseq (add1 Splitting)); auto.
  - intros t0 _ x y. reflexivity.
  - intros a b c H1 H2 x y. rewrite (H1 x y). apply H2.
  - apply add1_tot.
  - intros t0 u a t' u' Ht Hu R Et Eu. apply sseq_le. intros x y L. rewrite (add1_split _ _ _ Ht Et x y L), (add1_split _ _ _ Hu Eu x y L).
    rewrite (R x y), (sseq_cseq t0 u R x), (clear_ext (cmem t0) (cmem u) x y (sseq_cseq t0 u R)). reflexivity.
  - intros t0 a b t1 t2 u1 u2 Ht E1 E2 F1 F2.
    assert (H1 : reach Splitting t1). { destruct (add1_tot _ t0 a Ht) as (q & Eq & Hq). congruence. }
    assert (G1 : reach Splitting u1). { destruct (add1_tot _ t0 b Ht) as (q & Eq & Hq). congruence. }
    assert (Sl : forall x y, same_seg (keys X t0) x y -> cmem t0 x) by (intros x y (c & Hc & Mx & _); exists c; auto).
    assert (Sr : forall x, same_seg (keys X t0) x x <-> cmem t0 x) by (intros x; apply seg_self).
    apply sseq_le. intros x y L.
    rewrite (split_swap (V := unit) (cmem t0) (cmem t1) _ _ _ a b (fun v => v) Sr Sl (add1_mem _ _ _ _ Ht E1) (add1_split _ _ _ Ht E1) (add1_split _ _ _ H1 E2) x y L).
    rewrite (split_swap (V := unit) (cmem t0) (cmem u1) _ _ _ b a (fun v => v) Sr Sl (add1_mem _ _ _ _ Ht F1) (add1_split _ _ _ Ht F1) (add1_split _ _ _ G1 F2) x y L).
    tauto.
Qed.
Lemma set_perm st l l' t : Permutation l l' -> reach st t -> eq_seg X k (foldM (add1 st) t l) (foldM (add1 st) t l').
Proof.
  intros Hp H. unfold eq_seg. destruct st.
  - destruct (join_perm l l' t Hp H) as (t' & u' & E & F & R1 & R2 & Q). exists t', u'. split; auto. split; auto. apply (thm_canonical X k HX); auto.
  - destruct (sep_perm l l' t Hp H) as (t' & u' & E & F & R1 & R2 & Q). exists t', u'. split; auto. split; auto. eapply (thm_equal_segs X k HX); eauto.
  - destruct (split_perm l l' t Hp H) as (t' & u' & E & F & R1 & R2 & Q). exists t', u'. split; auto. split; auto. eapply (thm_equal_segs X k HX); eauto.
Qed.
Lemma sub_perm st l l' t : Permutation l l' -> reach st t -> eq_seg X k (foldM (s_subtract X k) t l) (foldM (s_subtract X k) t l').
Proof.
  intros Hp H.
  assert (tot : forall t a, reach st t -> exists t', s_subtract X k t a = Ok t' /\ reach st t').
  { intros t0 a H0. destruct (thm_sub_borders X k HX st t0 a H0) as (t1 & E & _). exists t1. split; auto. eapply R_subtract; eauto. }
  assert (B : forall t a t', reach st t -> s_subtract X k t a = Ok t' -> forall x y, le x y ->
    (same_seg (keys X t') x y <-> same_seg (keys X t) x y /\ clear_of (mem a) x y)).
  { intros t0 a t' H0 E. destruct (thm_sub_borders X k HX st t0 a H0) as (t1 & E1 & C). rewrite E1 in E. injection E as <-. exact C. }
  destruct (perm_fold (reach st) sseq (s_subtract X k)) with (l := l) (l' := l') (t := t) as (t' & u' & E & F & R1 & R2 & Q); auto.
  - intros t0 _ x y. reflexivity.
  - intros a b c H1 H2 x y. rewrite (H1 x y). apply H2.
  - intros t0 u a t' u' Ht Hu R Et Eu. apply sseq_le. intros x y L. rewrite (B _ _ _ Ht Et x y L), (B _ _ _ Hu Eu x y L), (R x y). reflexivity.
  - intros t0 a b t1 t2 u1 u2 Ht E1 E2 F1 F2.
    assert (H1 : reach st t1). { destruct (tot t0 a Ht) as (q & Eq & Hq). congruence. }
    assert (G1 : reach st u1). { destruct (tot t0 b Ht) as (q & Eq & Hq). congruence. }
    apply sseq_le. intros x y L. rewrite (B _ _ _ H1 E2 x y L), (B _ _ _ Ht E1 x y L), (B _ _ _ G1 F2 x y L), (B _ _ _ Ht F1 x y L). tauto.
  - exists t', u'. split; auto. split; auto. eapply (thm_equal_segs X k HX); eauto.
Qed.
End HistThms.

Section HistMaps.
Context (X : dom) (k : kind).
Context (HX : dom_ok X k).
Context (CC : codomain) (Hco : eq_ok CC).
Notation I := (itv (D X)).
Notation V := (C CC).
Notation imap := (tree (D X) V).
Notation mem := (mem X k).
Notation cmem := (SetSpec.cmem X k).
Notation same_seg := (same_seg X k).
Notation at_ := (at_ X k CC).
Notation mreach := (mreach X k CC).
Notation clear_of := (clear_of X).

(* ------------------------------------------------------------ one association *)
Section Values.
Context (p : mpar).
Notation f := (mp_combine p).
Definition act (b : bool) (w v : V) : V := combine CC (if b then f else inverse CC f) w v.
Definition gval (b : bool) (v : V) (o : option V) : option V := if b then add_val CC p v o else sub_val CC p v o.
Definition dflt (o : option V) : V := match o with Some w => w | None => cc_zero end.
Definition good (o : option V) : Prop := mp_absorbs p = true -> o <> Some cc_zero.
Lemma absorbed_iff v : absorbed CC p v = true <-> mp_absorbs p = true /\ v = cc_zero.
Proof. unfold absorbed. rewrite andb_true_iff, (Hco v cc_zero). reflexivity. Qed.
Lemma dflt_store w : dflt (store CC p w) = w.
Proof. unfold store. destruct (absorbed CC p w) eqn:E; [|reflexivity]. apply absorbed_iff in E. destruct E as [_ ->]. reflexivity. Qed.
Lemma good_store w : good (store CC p w).
Proof.
  intros A. unfold store. destruct (absorbed CC p w) eqn:E; [discriminate|]. intros Q. injection Q as ->.
  assert (F : absorbed CC p cc_zero = true) by (apply absorbed_iff; auto). congruence.
Qed.
Lemma store_dflt w : good (Some w) -> store CC p w = Some w.
Proof. intros G. unfold store. destruct (absorbed CC p w) eqn:E; [|reflexivity]. apply absorbed_iff in E. destruct E as [A ->]. destruct (G A). reflexivity. Qed.

Context (Hm : cmonoid CC f).
Lemma act_zero b w : (b = true \/ cgroup CC f) -> act b w cc_zero = w.
Proof.
  destruct Hm as (_ & Z & Cm & _). assert (R : combine CC f w cc_zero = w) by (rewrite Cm; apply Z). intros [->|(G & _)]; [exact R|].
  destruct b; [exact R|]. unfold act. rewrite <- R at 1. apply G.
Qed.
Lemma act_swap b c u v w : (b = true \/ cgroup CC f) -> (c = true \/ cgroup CC f) -> act b (act c w v) u = act c (act b w u) v.
Proof.
  destruct Hm as (_ & _ & Cm & As). unfold act. intros Hb Hc.
  assert (PP : forall w u v, combine CC f (combine CC f w v) u = combine CC f (combine CC f w u) v).
  { intros w0 u0 v0. rewrite !As, (Cm v0 u0). reflexivity. }
  assert (PM : cgroup CC f -> forall w u v, combine CC f (combine CC (inverse CC f) w v) u = combine CC (inverse CC f) (combine CC f w u) v).
  { intros (G1 & G2 & _) w0 u0 v0. rewrite <- (G2 v0 w0) at 2. rewrite PP, G1. reflexivity. }
  assert (MM : cgroup CC f -> forall w u v, combine CC (inverse CC f) (combine CC (inverse CC f) w v) u = combine CC (inverse CC f) (combine CC (inverse CC f) w u) v).
  { intros G w0 u0 v0. pose proof G as (G1 & G2 & _). rewrite <- (G2 u0 w0) at 1. rewrite <- (PM G), G1. reflexivity. }
  destruct b, c; [apply PP|apply PM; destruct Hc; [discriminate|assumption]|symmetry; apply PM; destruct Hb; [discriminate|assumption]|apply MM; destruct Hb; [discriminate|assumption]].
Qed.
(** where the subtrahend meets a value, or absent values are subtracted from as well *)
Definition usable (b : bool) (o : option V) : Prop :=
  b = true \/ cgroup CC f /\ (mp_total p = true /\ cc_invertible CC = true \/ o <> None).
Lemma gval_store b v o : good o -> usable b o -> gval b v o = store CC p (act b (dflt o) v).
Proof.
  intros G U. assert (Hb : b = true \/ cgroup CC f) by (destruct U as [U|[U _]]; auto).
  destruct (absorbed CC p v) eqn:Ev.
  { pose proof Ev as Q. apply absorbed_iff in Q. destruct Q as [A ->]. rewrite (act_zero _ _ Hb).
    assert (R : gval b cc_zero o = o).
    { unfold gval, add_val, sub_val, plus_val. rewrite Ev. destruct b; [reflexivity|]. destruct (mp_total p && cc_invertible CC); reflexivity. }
    rewrite R. destruct o as [w|]; cbn [dflt]; [symmetry; apply store_dflt; exact G|]. unfold store. rewrite Ev. reflexivity. }
  destruct Hm as (F1 & F2 & Cm & As). unfold gval, add_val, sub_val, plus_val. rewrite Ev. destruct b.
  { unfold act. destruct o as [w|]; cbn [dflt]; [reflexivity|]. rewrite F1, F2. unfold store. rewrite Ev. reflexivity. }
  destruct U as [U|[(G1 & G2 & G3) U]]; [discriminate|]. unfold act.
  destruct o as [w|]; cbn [dflt]. { destruct (mp_total p && cc_invertible CC); reflexivity. }
  destruct U as [[-> ->]|U]; [|destruct (U eq_refl)]. cbn [andb]. rewrite G3.
  unfold store. destruct (absorbed CC p (combine CC (inverse CC f) cc_zero v)) eqn:E; [|reflexivity].
  exfalso. apply absorbed_iff in E. destruct E as [A E]. pose proof (G2 v cc_zero) as Q. rewrite E, F2 in Q. subst v.
  assert (F : absorbed CC p cc_zero = true) by (apply absorbed_iff; auto). congruence.
Qed.
Lemma gval_swap b c u v o : good o ->
  (b = true \/ cgroup CC f /\ mp_total p = true /\ cc_invertible CC = true) ->
  (c = true \/ cgroup CC f /\ mp_total p = true /\ cc_invertible CC = true) -> gval b u (gval c v o) = gval c v (gval b u o).
Proof.
  intros G Hb Hc. assert (Ub : forall o, usable b o) by (intros o'; unfold usable; tauto). assert (Uc : forall o, usable c o) by (intros o'; unfold usable; tauto).
  rewrite (gval_store c v o), (gval_store b u o), (gval_store b u), (gval_store c v), !dflt_store; auto using good_store.
  rewrite act_swap; tauto.
Qed.
End Values.

(* ------------------------------------------------------------ one step *)
Definition hstep p (t : imap) (s : bool * (I * V)) : res imap :=
  if fst s then m_add X k (mt CC p) t (fst (snd s)) (snd (snd s)) else m_subtract X k (mt CC p) t (fst (snd s)) (snd (snd s)).
Lemma hstep_tot p t s : mreach p t -> exists t', hstep p t s = Ok t' /\ mreach p t'.
Proof.
  intros H. destruct s as [[] [a v]]; unfold hstep; cbn [fst snd].
  - destruct (thm_madd X k HX CC Hco p t H a v) as (t' & E & _). exists t'. split; auto. eapply M_add; eauto.
  - destruct (thm_msub X k HX CC Hco p t H a v) as (t' & E & _). exists t'. split; auto. eapply M_subtract; eauto.
Qed.
Lemma hstep_at p t s t' : mreach p t -> hstep p t s = Ok t' ->
  forall x, at_ t' x = if memb X k (fst (snd s)) x then gval p (fst s) (snd (snd s)) (at_ t x) else at_ t x.
Proof.
  intros H. destruct s as [[] [a v]]; unfold hstep; cbn [fst snd]; intros E x.
  - destruct (thm_madd X k HX CC Hco p t H a v) as (t1 & E1 & C). rewrite E1 in E. injection E as <-. apply (changed_if X k CC _ _ _ _ _ C).
  - destruct (thm_msub X k HX CC Hco p t H a v) as (t1 & E1 & C). rewrite E1 in E. injection E as <-. apply (changed_if X k CC _ _ _ _ _ C).
Qed.
Lemma hist_tot p l t : mreach p t -> exists t', m_history X k CC p t l = Ok t' /\ mreach p t'.
Proof. intros H. apply (fold_tot (mreach p) (hstep p)); auto. intros; apply hstep_tot; auto. Qed.
Lemma foldM_app {S A} (f : S -> A -> res S) l l' : forall t, foldM f t (l ++ l') = (t <- foldM f t l ;; foldM f t l').
Proof. induction l as [|a l IH]; intros t; cbn [foldM app]; [reflexivity|]. destruct (f t a); cbn [bind]; auto. Qed.
Lemma at_x_app l l' x : at_x X k CC (l ++ l') x = at_x X k CC l x ++ at_x X k CC l' x.
Proof. unfold at_x. rewrite filter_app, map_app. reflexivity. Qed.
Lemma hist_at p l : forall t, mreach p t -> exists t', m_history X k CC p t l = Ok t' /\ mreach p t' /\
  forall x, at_ t' x = fold_left (fun o s => gval p (fst s) (snd s) o) (at_x X k CC l x) (at_ t x).
Proof.
  induction l as [|s l IH]; intros t H. { exists t. split; [reflexivity|]. split; auto. }
  destruct (hstep_tot p t s H) as (t1 & E & H1). destruct (IH t1 H1) as (t' & E' & H' & Q). exists t'.
  split. { unfold m_history. cbn [foldM]. change (bind (hstep p t s) (fun t => m_history X k CC p t l) = Ok t'). rewrite E. exact E'. }
  split; auto. intros x. rewrite Q, (hstep_at p t s t1 H E x). unfold at_x. cbn [filter]. destruct (memb X k (fst (snd s)) x); reflexivity.
Qed.

(* ------------------------------------------------------------ C79 *)
Lemma fold_balance p (l : list (bool * V)) : cmonoid CC (mp_combine p) ->
  (forall l1 b v l2, l = l1 ++ (b, v) :: l2 -> b = true \/ cgroup CC (mp_combine p) /\
     (mp_total p = true /\ cc_invertible CC = true \/ mp_absorbs p = true /\ balance CC (mp_combine p) l1 <> cc_zero)) ->
  fold_left (fun o s => gval p (fst s) (snd s) o) l None = match l with [] => None | vs => store CC p (balance CC (mp_combine p) vs) end.
Proof.
  intros Hm. induction l as [|[b v] l IH] using rev_ind; intros U; [reflexivity|].
  assert (E : match l ++ [(b, v)] with [] => None | _ => store CC p (balance CC (mp_combine p) (l ++ [(b, v)])) end =
              store CC p (act p b (balance CC (mp_combine p) l) v)).
  { assert (Q : balance CC (mp_combine p) (l ++ [(b, v)]) = act p b (balance CC (mp_combine p) l) v) by (unfold balance; rewrite fold_left_app; reflexivity).
    rewrite Q. destruct l; reflexivity. }
  etransitivity; [|symmetry; exact E]. rewrite fold_left_app. cbn [fold_left fst snd]. clear E.
  rewrite IH.
  2:{ intros l1 b0 v0 l2 ->. rewrite <- app_assoc in U. apply (U l1 b0 v0 (l2 ++ [(b, v)])). reflexivity. }
  specialize (U l b v [] eq_refl).
  assert (Q : forall o, dflt o = balance CC (mp_combine p) l -> good p o -> (mp_absorbs p = true -> balance CC (mp_combine p) l <> cc_zero -> o <> None) ->
    gval p b v o = store CC p (act p b (balance CC (mp_combine p) l) v)).
  { intros o D G N. rewrite gval_store; auto. { rewrite D. reflexivity. }
    destruct U as [U|[U1 [U2|[U2 U3]]]]; [left; exact U|right; auto..]. }
  destruct l as [|s l].
  - apply Q; [reflexivity|intros _; discriminate|]. intros _ N. destruct (N eq_refl).
  - apply Q; [apply dflt_store|apply good_store|]. intros A N. unfold store. destruct (absorbed CC p (balance CC (mp_combine p) (s :: l))) eqn:E; [|discriminate].
    apply absorbed_iff in E. destruct E as [_ E]. destruct (N E).
Qed.
Lemma hist_balance p l : cmonoid CC (mp_combine p) -> cgroup CC (mp_combine p) -> mp_total p = true -> cc_invertible CC = true ->
  exists t, m_history X k CC p t_empty l = Ok t /\ mreach p t /\
  forall x, at_ t x = match at_x X k CC l x with [] => None | vs => store CC p (balance CC (mp_combine p) vs) end.
Proof.
  intros Hm Hg Ht Hi. destruct (hist_at p l t_empty) as (t & E & H & Q); [constructor|]. exists t. split; auto. split; auto.
  intros x. rewrite Q. replace (at_ t_empty x) with (@None V) by reflexivity. rewrite fold_balance; auto. destruct (at_x X k CC l x); reflexivity.
Qed.
Lemma filter_split {A B} (q : A -> bool) (g : A -> B) (l : list A) : forall l1 b l2, map g (filter q l) = l1 ++ b :: l2 ->
  exists m1 s m2, l = m1 ++ s :: m2 /\ q s = true /\ g s = b /\ map g (filter q m1) = l1.
Proof.
  induction l as [|s l IH]; intros l1 b l2 E; cbn [filter map] in E. { destruct l1; discriminate. }
  destruct (q s) eqn:Qs.
  - destruct l1 as [|c l1]; cbn [map app] in E; injection E as E1 E2.
    + exists [], s, l. auto.
    + destruct (IH l1 b l2 E2) as (m1 & s' & m2 & -> & Q' & G' & M'). exists (s :: m1), s', m2. cbn [filter app]. rewrite Qs. cbn [map]. rewrite M', E1. auto.
  - destruct (IH l1 b l2 E) as (m1 & s' & m2 & -> & Q' & G' & M'). exists (s :: m1), s', m2. cbn [filter app]. rewrite Qs. auto.
Qed.
Lemma hist_covered p l : cmonoid CC (mp_combine p) -> cgroup CC (mp_combine p) -> mp_absorbs p = true -> covered X k CC (mp_combine p) l ->
  exists t, m_history X k CC p t_empty l = Ok t /\ mreach p t /\
  forall x, at_ t x = store CC p (balance CC (mp_combine p) (at_x X k CC l x)).
Proof.
  intros Hm Hg Ha Hc. destruct (hist_at p l t_empty) as (t & E & H & Q); [constructor|]. exists t. split; auto. split; auto.
  intros x. rewrite Q. replace (at_ t_empty x) with (@None V) by reflexivity. rewrite fold_balance; auto.
  - destruct (at_x X k CC l x); auto. unfold store, balance. cbn [fold_left]. rewrite (proj2 (absorbed_iff p cc_zero)); auto.
  - intros l1 b v l2 E2. destruct b; [left; reflexivity|right]. split; auto. right. split; auto.
    unfold at_x in E2. apply filter_split in E2. destruct E2 as (m1 & [b' [a w]] & m2 & -> & Mx & G & <-). cbn [fst snd] in *. injection G as -> ->.
    apply (Hc m1 a v m2 x eq_refl). apply (memb_mem X k). exact Mx.
Qed.
Lemma build_hist p (l : list (I * V)) (t : imap) : foldM (fun (t : imap) (s : I * V) => m_add X k (mt CC p) t (fst s) (snd s)) t l = m_history X k CC p t (adds X CC l).
Proof.
  unfold m_history, adds. revert t. induction l as [|s l IH]; intros t; cbn [foldM map fst snd]; [reflexivity|].
  match goal with |- bind ?a _ = bind ?b _ => change b with a; destruct a end; cbn [bind]; [apply IH|reflexivity].
Qed.
Lemma at_adds l x : at_x X k CC (adds X CC l) x = map (pair true) (values_at X k CC l x).
Proof.
  unfold at_x, adds, values_at. induction l as [|s l IH]; cbn [map filter fst snd]; [reflexivity|]. destruct (memb X k (fst s) x); cbn [map fst snd]; rewrite IH; reflexivity.
Qed.
Lemma balance_adds f (l : list V) : balance CC f (map (pair true) l) = fold_left (combine CC f) l cc_zero.
Proof. unfold balance. generalize (@cc_zero CC). induction l as [|v l IH]; intros w; cbn [map fold_left fst snd]; [reflexivity|apply IH]. Qed.
Lemma hist_sum p l : cmonoid CC (mp_combine p) -> exists t, mbuild X k CC p l = Ok t /\
  forall x, at_ t x = match values_at X k CC l x with [] => None | vs => store CC p (fold_left (combine CC (mp_combine p)) vs cc_zero) end.
Proof.
  intros Hm. unfold mbuild. rewrite build_hist. destruct (hist_at p (adds X CC l) t_empty) as (t & E & H & Q); [constructor|]. exists t. split; auto.
  intros x. rewrite Q, at_adds. replace (at_ t_empty x) with (@None V) by reflexivity. rewrite fold_balance; auto.
  - destruct (values_at X k CC l x) as [|v vs]; [reflexivity|]. rewrite <- (balance_adds (mp_combine p) (v :: vs)). reflexivity.
  - intros l1 b v l2 E2. left. assert (Hi : In (b, v) (map (pair true) (values_at X k CC l x))) by (rewrite E2; apply in_elt).
    apply in_map_iff in Hi. destruct Hi as (w & W & _). congruence.
Qed.

(* ------------------------------------------------------------ C80 *)
Definition fneq (t u : imap) : Prop := forall x, at_ t x = at_ u x.
Lemma map_perm p l l' t : proper CC p -> cmonoid CC (mp_combine p) -> Permutation l l' -> mreach p t ->
  (forall s, In s l -> fst s = true) \/ (cgroup CC (mp_combine p) /\ mp_total p = true /\ cc_invertible CC = true) ->
  exists t' u', m_history X k CC p t l = Ok t' /\ m_history X k CC p t l' = Ok u' /\ mreach p t' /\ mreach p u' /\ fneq t' u'.
Proof.
  intros Pp Hm Hp Ht Hs.
  assert (sw : forall t s s' t1 t2 u1 u2, (fst s = true /\ fst s' = true) \/ (cgroup CC (mp_combine p) /\ mp_total p = true /\ cc_invertible CC = true) ->
    mreach p t -> hstep p t s = Ok t1 -> hstep p t1 s' = Ok t2 -> hstep p t s' = Ok u1 -> hstep p u1 s = Ok u2 -> fneq t2 u2).
  { intros t0 s s' t1 t2 u1 u2 Hss H E1 E2 F1 F2 x.
    assert (H1 : mreach p t1). { destruct (hstep_tot p t0 s H) as (q & Eq & Hq). congruence. }
    assert (G1 : mreach p u1). { destruct (hstep_tot p t0 s' H) as (q & Eq & Hq). congruence. }
    rewrite (hstep_at p t1 s' t2 H1 E2), (hstep_at p t0 s t1 H E1), (hstep_at p u1 s u2 G1 F2), (hstep_at p t0 s' u1 H F1).
    destruct (memb X k (fst (snd s)) x), (memb X k (fst (snd s')) x); try reflexivity.
    apply gval_swap; auto; [exact (good_at_reach X k HX CC Hco p t0 x Pp H)|tauto..]. }
  destruct Hs as [Hs|Hs].
  - assert (Q : forall (l l' : list (I * V)), Permutation l l' -> exists t' u', foldM (fun t s => hstep p t (true, s)) t l = Ok t' /\
      foldM (fun t s => hstep p t (true, s)) t l' = Ok u' /\ mreach p t' /\ mreach p u' /\ fneq t' u').
    { intros m m' Hmm. apply (perm_fold (mreach p) fneq (fun t s => hstep p t (true, s))); auto.
      - intros t0 _ x. reflexivity.
      - intros a b c H1 H2 x. rewrite (H1 x). apply H2.
      - intros t0 a H0. apply hstep_tot; auto.
      - intros t0 u a t' u' H1 H2 R E1 E2 x. rewrite (hstep_at _ _ _ _ H1 E1), (hstep_at _ _ _ _ H2 E2), (R x). reflexivity.
      - intros t0 a b t1 t2 u1 u2 H0 E1 E2 F1 F2. apply (sw t0 (true, a) (true, b) t1 t2 u1 u2); [left; split; reflexivity|assumption..]. }
    assert (S : forall m : list (bool * (I * V)), (forall s, In s m -> fst s = true) -> forall t, m_history X k CC p t m = foldM (fun t s => hstep p t (true, s)) t (map snd m)).
    { induction m as [|[b s] m IH]; intros Hs' t0; [reflexivity|]. unfold m_history. cbn [map foldM snd fst]. assert (b = true) as -> by (apply (Hs' (b, s)); left; reflexivity).
      unfold hstep at 1. cbn [fst snd]. match goal with |- bind ?a _ = bind ?b _ => change b with a; destruct a end; cbn [bind]; [|reflexivity]. apply IH. intros s' Hi. apply Hs'. right. exact Hi. }
    destruct (Q (map snd l) (map snd l')) as (t' & u' & E & F & R); [apply Permutation_map; exact Hp|].
    exists t', u'. rewrite !S; auto. intros s Hi. apply Hs. eapply Permutation_in; [apply Permutation_sym; exact Hp|exact Hi].
  - apply (perm_fold (mreach p) fneq (hstep p)); auto.
    + intros t0 _ x. reflexivity.
    + intros a b c H1 H2 x. rewrite (H1 x). apply H2.
    + intros t0 a H0. apply hstep_tot; auto.
    + intros t0 u a t' u' H1 H2 R E1 E2 x. rewrite (hstep_at _ _ _ _ H1 E1), (hstep_at _ _ _ _ H2 E2), (R x). reflexivity.
    + intros t0 a b t1 t2 u1 u2 H0 E1 E2 F1 F2. apply (sw t0 a b t1 t2 u1 u2); [right; exact Hs|assumption..].
Qed.
Lemma map_law p l l' t : proper CC p -> cmonoid CC (mp_combine p) -> Permutation l l' -> mreach p t ->
  (forall s, In s l -> fst s = true) \/ (cgroup CC (mp_combine p) /\ mp_total p = true /\ cc_invertible CC = true) ->
  law X k CC p (m_history X k CC p t l) (m_history X k CC p t l').
Proof.
  intros Pp Hm Hp Ht Hs. destruct (map_perm p l l' t Pp Hm Hp Ht Hs) as (t' & u' & E & F & R1 & R2 & Q). split.
  - exists t', u'. auto.
  - intros J. exists t', u'. split; auto. split; auto. eapply (thm_meqb_joined X k HX CC Hco p p); eauto.
Qed.

(* split_interval_map with an enricher: the segments are the same, too *)
Section SplitEnricher.
Context (p : mpar) (Hs : mp_style p = MSplit) (Ha : mp_absorbs p = false).
Notation astep := (fun (t : imap) (s : I * V) => m_add X k (mt CC p) t (fst s) (snd s)).
Lemma not_absorbed v : absorbed CC p v = false.
Proof. unfold absorbed. rewrite Ha. reflexivity. Qed.
Lemma astep_tot t s : mreach p t -> exists t', astep t s = Ok t' /\ mreach p t'.
Proof. intros H. exact (hstep_tot p t (true, s) H). Qed.
Lemma astep_at t s t' : mreach p t -> astep t s = Ok t' -> forall x, at_ t' x = if memb X k (fst s) x then add_val CC p (snd s) (at_ t x) else at_ t x.
Proof. intros H E. exact (hstep_at p t (true, s) t' H E). Qed.
Lemma astep_mem t s t' : mreach p t -> astep t s = Ok t' -> forall x, cmem t' x <-> cmem t x \/ mem (fst s) x.
Proof.
  intros H E x. assert (H' : mreach p t') by exact (M_add X k CC p t (fst s) (snd s) t' H E).
  rewrite (LookThms.at_cmem X k HX CC t' x (mreach_inv X k HX CC Hco p t' H')), (LookThms.at_cmem X k HX CC t x (mreach_inv X k HX CC Hco p t H)), (astep_at t s t' H E x), <- (memb_mem X k).
  destruct (memb X k (fst s) x); [|intuition congruence]. unfold add_val, plus_val. rewrite not_absorbed. split; [auto|]. intros _.
  destruct (at_ t x); unfold store; rewrite ?not_absorbed; eauto.
Qed.
Lemma astep_cut t s t' : mreach p t -> astep t s = Ok t' -> forall x y, le x y -> (same_seg (keys X t') x y <->
  (cmem t x \/ mem (fst s) x) /\ (same_seg (keys X t) x y \/ clear_of (cmem t) x y) /\ ((mem (fst s) x /\ mem (fst s) y) \/ clear_of (mem (fst s)) x y)).
Proof.
  intros H E x y L. destruct (mem_dec X k HX (fst s)) as [N|N].
  - rewrite <- (astep_mem t s t' H E x). destruct (MapBorders.thm_add_borders X k HX CC Hco p t H Hs (fst s) (snd s) N (not_absorbed _)) as (t1 & E1 & C).
    assert (Q : t1 = t') by congruence. subst t1. apply C. exact L.
  - assert (t' = t) as ->. { unfold m_add, m_add_ in E. rewrite (proj2 (is_empty_spec X k HX (fst s)) N) in E. cbn [bind] in E. congruence. }
    split.
    + intros S. split; [|split; [left; exact S|right; intros z _ _; apply N]]. left. destruct S as (b & Hb & Mx & _). exists b. auto.
    + intros ([C|C] & [S|S] & _); auto; [|destruct (N _ C)..]. destruct (S x (le_self X k HX x) L C).
Qed.
Definition msseq (t u : imap) : Prop := forall x y, same_seg (keys X t) x y <-> same_seg (keys X u) x y.
Lemma msseq_le t u : (forall x y, le x y -> (same_seg (keys X t) x y <-> same_seg (keys X u) x y)) -> msseq t u.
Proof.
  intros H x y. destruct (le_or X k HX x y) as [L|L]; [apply H; exact L|]. split; intros S; apply seg_sym; apply H; auto; apply seg_sym; exact S.
Qed.
Lemma msseq_cseq t u : msseq t u -> forall x, cmem t x <-> cmem u x.
Proof. intros H x. unfold SetSpec.cmem. rewrite <- !seg_self. apply H. Qed.
Lemma esplit_perm l l' t : Permutation l l' -> mreach p t ->
  exists t' u', foldM astep t l = Ok t' /\ foldM astep t l' = Ok u' /\ mreach p t' /\ mreach p u' /\ msseq t' u'.
Proof.
  intros Hp H. apply (perm_fold (mreach p) msseq astep); auto.
  - intros t0 _ x y. reflexivity.
  - intros a b c H1 H2 x y. rewrite (H1 x y). apply H2.
  - intros t0 s H0. apply astep_tot; auto.
  - intros t0 u a t' u' Ht Hu R Et Eu. apply msseq_le. intros x y L. rewrite (astep_cut _ _ _ Ht Et x y L), (astep_cut _ _ _ Hu Eu x y L).
    rewrite (R x y), (msseq_cseq t0 u R x), (clear_ext X (cmem t0) (cmem u) x y (msseq_cseq t0 u R)). reflexivity.
  - intros t0 a b t1 t2 u1 u2 Ht E1 E2 F1 F2.
    assert (H1 : mreach p t1) by exact (M_add X k CC p t0 (fst a) (snd a) t1 Ht E1). assert (G1 : mreach p u1) by exact (M_add X k CC p t0 (fst b) (snd b) u1 Ht F1).
    assert (Sl : forall x y, same_seg (keys X t0) x y -> cmem t0 x) by (intros x y (c & Hc & Mx & _); exists c; auto).
    assert (Sr : forall x, same_seg (keys X t0) x x <-> cmem t0 x) by (intros x; apply seg_self).
    apply msseq_le. intros x y L.
    rewrite (split_swap X k HX (V := unit) (cmem t0) (cmem t1) _ _ _ (fst a) (fst b) (fun v => v) Sr Sl (astep_mem _ _ _ Ht E1) (astep_cut _ _ _ Ht E1) (astep_cut _ _ _ H1 E2) x y L).
    rewrite (split_swap X k HX (V := unit) (cmem t0) (cmem u1) _ _ _ (fst b) (fst a) (fun v => v) Sr Sl (astep_mem _ _ _ Ht F1) (astep_cut _ _ _ Ht F1) (astep_cut _ _ _ G1 F2) x y L).
    tauto.
Qed.
Lemma esplit_law l l' t : proper CC p -> cmonoid CC (mp_combine p) -> Permutation l l' -> mreach p t ->
  meq_seg X k CC p (m_history X k CC p t (adds X CC l)) (m_history X k CC p t (adds X CC l')).
Proof.
  intros Pp Hm Hp Ht. destruct (map_perm p (adds X CC l) (adds X CC l') t Pp Hm) as (t' & u' & E & F & R1 & R2 & Q); auto.
  { apply Permutation_map. exact Hp. }
  { left. intros s Hi. apply in_map_iff in Hi. destruct Hi as (w & <- & _). reflexivity. }
  destruct (esplit_perm l l' t Hp Ht) as (t1 & u1 & E1 & F1 & _ & _ & Q1). rewrite build_hist in E1, F1.
  assert (t1 = t') by congruence. assert (u1 = u') by congruence. subst t1 u1.
  exists t', u'. split; auto. split; auto. apply (thm_meqb X k HX CC Hco p p); auto. split; [exact Q|].
  unfold segs. rewrite !map_map. cbn [fst]. exact Q1.
Qed.
End SplitEnricher.
End HistMaps.

(* ------------------------------------------------------------ counting overlaps *)
Lemma count_overlaps X k : dom_ok X k -> forall s l, exists t,
  mbuild X k Zco (absorber s) (map (fun a => (a, 1%Z)) l) = Ok t /\
  forall x, at_ X k Zco t x = match length (filter (fun a => memb X k a x) l) with 0 => None | n => Some (Z.of_nat n) end.
Proof.
  intros HX s l. destruct (hist_sum X k HX Zco Zco_ok (absorber s) (map (fun a => (a, 1%Z)) l) Z_monoid) as (t & E & Q). exists t. split; auto.
  intros x. rewrite Q.
  assert (V : values_at X k Zco (map (fun a => (a, 1%Z)) l) x = repeat 1%Z (length (filter (fun a => memb X k a x) l))).
  { clear. unfold values_at. induction l as [|a l IH]; cbn [map filter fst]; [reflexivity|]. destruct (memb X k a x); cbn [map snd length repeat]; rewrite ?IH; reflexivity. }
  rewrite V. assert (Sm : forall n w, fold_left (combine Zco F_plus) (repeat 1%Z n) w = (w + Z.of_nat n)%Z).
  { induction n as [|n IH]; intros w; cbn [repeat fold_left]; [cbn; lia|]. rewrite IH. cbn [combine Zco cc_add C]. lia. }
  destruct (length (filter (fun a => memb X k a x) l)) as [|n] eqn:En; [reflexivity|].
  change (match repeat 1%Z (S n) with [] => None | vs => store Zco (absorber s) (fold_left (combine Zco F_plus) vs 0%Z) end = Some (Z.of_nat (S n))).
  cbn [repeat]. change (store Zco (absorber s) (fold_left (combine Zco F_plus) (repeat 1%Z (S n)) 0%Z) = Some (Z.of_nat (S n))).
  rewrite Sm. unfold store. destruct (absorbed Zco (absorber s) (0 + Z.of_nat (S n))%Z) eqn:A; [|reflexivity].
  apply (absorbed_iff Zco Zco_ok) in A. destruct A as [_ A]. cbn in A. lia.
Qed.
