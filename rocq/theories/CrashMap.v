(** What an exception leaves of an interval map (proofs). *)
From Verif Require Export CrashFacts CrashMapModel MapErase.

Lemma throws_assoc {T A B Q} (m : cm T A) (f : A -> cm T B) (g : B -> cm T Q) P :
  throws (cbind m (fun a => cbind (f a) g)) P -> throws (cbind (cbind m f) g) P.
Proof. intros H n t E. apply (H n). rewrite <- E. unfold cbind. destruct (m n); auto. Qed.

Section CrashMapFollows.
Context (X : dom) (k : kind) (M : mtype).
Notation CC := (mt_co M).
Notation I := (itv (D X)).
Notation imap := (tree (D X) (C CC)).
Ltac ag1 := match goal with
  | |- follows (cbind _ _) _ => apply follows_bind; [|intros]
  | |- follows (lift _) _ => apply follows_lift
  | |- follows (cret _) _ => apply follows_ret
  | |- follows (c_insert _ _ _ _ _) _ => apply follows_insert
  | |- follows (c_insert_hint _ _ _ _ _ _) _ => apply follows_insert_hint
  | |- follows (let '(_, _) := ?p in _) _ => destruct p
  | |- follows (if ?b then _ else _) _ => destruct b
  | |- follows (match mt_style M with _ => _ end) _ => destruct (mt_style M)
  end.
Ltac ag := repeat (ag1; cbn zeta).

Lemma follows_m_insert_loop fuel : forall (t : imap) r x p i e, follows (cm_insert_loop X k M fuel t r x p i e) (m_insert_loop X k M fuel t r x p i e).
Proof.
  induction fuel as [|fuel IH]; intros; cbn [cm_insert_loop m_insert_loop]; [apply (follows_lift (Err Fuel))|].
  destruct (negb (iter_eqb i e)); [|apply follows_ret]. ag1; [ag|]. cbn zeta. ag1; [|ag; apply IH]. ag.
Qed.
Lemma follows_m_insert_main (t : imap) a x i l : follows (cm_insert_main X k M t a x i l) (m_insert_main X k M t a x i l).
Proof.
  unfold cm_insert_main, m_insert_main. do 3 (ag1; [ag|]). ag1; [apply follows_m_insert_loop|]. ag.
Qed.
Lemma follows_m_insert_ (t : imap) a x : follows (cm_insert_ X k M t a x) (m_insert_ X k M t a x).
Proof. unfold cm_insert_, m_insert_. ag. apply follows_m_insert_main. Qed.
Theorem follows_m_insert (t : imap) a x : follows (cm_insert X k M t a x) (m_insert X k M t a x).
Proof. unfold cm_insert, m_insert. ag1; [apply follows_m_insert_|ag]. Qed.
Theorem follows_m_insert_hint (t : imap) h a x : follows (cm_insert_hint X k M t h a x) (m_insert_hint X k M t h a x).
Proof. unfold cm_insert_hint, m_insert_hint, cm_insert_at, insert_at. ag. apply follows_m_insert_main. Qed.
Theorem follows_m_erase_seg (t : imap) a x : follows (cm_erase_seg X k M t a x) (m_erase_seg X k M t a x).
Proof. unfold cm_erase_seg, m_erase_seg. ag. Qed.
Theorem follows_m_erase (t : imap) a : follows (cm_erase X k M t a) (m_erase X k M t a).
Proof. unfold cm_erase, m_erase. ag. Qed.
Theorem follows_m_set (t : imap) a x : follows (cm_set X k M t a x) (m_set X k M t a x).
Proof. unfold cm_set, m_set. ag1; [apply follows_m_erase|apply follows_m_insert]. Qed.
Lemma follows_gap_insert f (t : imap) p a x : follows (cm_gap_insert X k M f t p a x) (gap_insert X k M f t p a x).
Proof. unfold cm_gap_insert, gap_insert. ag. Qed.
Lemma follows_m_add_front (t : imap) a i : follows (cm_add_front X k M t a i) (m_add_front X k M t a i).
Proof. unfold cm_add_front, m_add_front. ag. Qed.
Lemma follows_m_add_segment f (t : imap) a x i : follows (cm_add_segment X k M f t a x i) (m_add_segment X k M f t a x i).
Proof. unfold cm_add_segment, m_add_segment. ag. apply follows_gap_insert. Qed.
Lemma follows_m_add_main fuel f : forall (t : imap) a x i l, follows (cm_add_main X k M fuel f t a x i l) (m_add_main X k M fuel f t a x i l).
Proof.
  induction fuel as [|fuel IH]; intros; cbn [cm_add_main m_add_main]; [apply (follows_lift (Err Fuel))|].
  ag; [apply follows_m_add_segment|apply IH].
Qed.
Lemma follows_gap_insert_at f (t : imap) i p a x : follows (cm_gap_insert_at X k M f t i p a x) (m_gap_insert_at X k M f t i p a x).
Proof. unfold cm_gap_insert_at, m_gap_insert_at. ag; apply follows_gap_insert. Qed.
Lemma follows_m_add_rear f (t : imap) a x i : follows (cm_add_rear X k M f t a x i) (m_add_rear X k M f t a x i).
Proof. unfold cm_add_rear, m_add_rear. ag; first [apply follows_gap_insert|apply follows_gap_insert_at]. Qed.
Lemma follows_m_add_over f (t : imap) a x : follows (cm_add_over X k M f t a x) (m_add_over X k M f t a x).
Proof. unfold cm_add_over, m_add_over. ag; [apply follows_m_add_front|apply follows_m_add_main|apply follows_m_add_rear]. Qed.
Lemma follows_m_add_ f (t : imap) a x : follows (cm_add_ X k M f t a x) (m_add_ X k M f t a x).
Proof. unfold cm_add_, m_add_. ag. apply follows_m_add_over. Qed.
Theorem follows_m_add (t : imap) a x : follows (cm_add X k M t a x) (m_add X k M t a x).
Proof. unfold cm_add, m_add. ag. apply follows_m_add_. Qed.
Theorem follows_m_add_hint (t : imap) h a x : follows (cm_add_hint X k M t h a x) (m_add_hint X k M t h a x).
Proof. unfold cm_add_hint, m_add_hint, cm_add_hint_, m_add_hint_, cm_add_at, add_at. ag. apply follows_m_add_over. Qed.
Lemma follows_m_subtract_rear f (t : imap) a x i : follows (cm_subtract_rear X k M f t a x i) (m_subtract_rear X k M f t a x i).
Proof. unfold cm_subtract_rear, m_subtract_rear. ag. Qed.
Theorem follows_m_subtract (t : imap) a x : follows (cm_subtract X k M t a x) (m_subtract X k M t a x).
Proof.
  unfold cm_subtract, m_subtract. ag; [apply follows_m_add_|]. unfold cm_subtract_, m_subtract_.
  ag; [apply follows_m_add_front|apply follows_m_subtract_rear].
Qed.

Theorem follows_add_map (t o : imap) : follows (cm_add_map X k M t o) (m_add_map X k M t o).
Proof.
  unfold cm_add_map, m_add_map. ag.
  apply (follows_cfold (fun '(t, prior_) n => cm_add_hint X k M t prior_ (nkey n) (nval n)) (fun '(t, prior_) n => m_add_hint X k M t prior_ (nkey n) (nval n))).
  intros [u i] b. apply follows_m_add_hint.
Qed.
Theorem follows_insert_map (t o : imap) : follows (cm_insert_map X k M t o) (m_insert_map X k M t o).
Proof. apply follows_cfold. intros u b. ag. apply follows_m_insert_hint. Qed.
Theorem follows_subtract_map (t o : imap) : follows (cm_subtract_map X k M t o) (m_subtract_map X k M t o).
Proof. apply follows_cfold. intros u b. apply follows_m_subtract. Qed.
Theorem follows_erase_map (t o : imap) : follows (cm_erase_map X k M t o) (m_erase_map X k M t o).
Proof.
  unfold cm_erase_map, m_erase_map. destruct (nodes o); [ag|]. ag1; [ag|]. destruct a as [[lwb upb]|]; ag. apply follows_cfold. intros; apply follows_m_erase_seg.
Qed.
Theorem follows_erase_set (t : imap) o : follows (cm_erase_set X k M t o) (m_erase_set X k M t o).
Proof.
  unfold cm_erase_set, m_erase_set. destruct (nodes o); [ag|]. ag1; [ag|]. destruct a as [[lwb upb]|]; ag. apply follows_cfold. intros; apply follows_m_erase.
Qed.
Lemma follows_add_inter_seg (s t : imap) a x : follows (cm_add_intersection_seg X k M s t a x) (m_add_intersection_seg X k M s t a x).
Proof.
  unfold cm_add_intersection_seg, m_add_intersection_seg, m_total_add_intersection, cm_partial_add_intersection, m_partial_add_intersection.
  ag; [apply follows_add_map|apply follows_m_add|]. apply follows_cfold. intros u n. cbn zeta. ag; apply follows_m_add_.
Qed.
Lemma follows_add_inter_map (s t o : imap) : follows (cm_add_intersection_map X k M s t o) (m_add_intersection_map X k M s t o).
Proof.
  unfold cm_add_intersection_map, m_add_intersection_map. destruct (mt_total M); [ag; apply follows_add_map|]. destruct (nodes o); [ag|]. ag1; [ag|]. destruct a as [[lwb upb]|]; ag.
  apply follows_cfold. intros; apply follows_add_inter_seg.
Qed.
Lemma follows_add_inter_itv (s t : imap) a : follows (cm_add_intersection_itv X k M s t a) (m_add_intersection_itv X k M s t a).
Proof.
  unfold cm_add_intersection_itv, m_add_intersection_itv. ag.
  match goal with |- follows (cfold ?f _ _) (foldM ?g _ _) => apply (follows_cfold f g) end.
  intros [u j] n. cbn zeta. ag. apply follows_m_add_hint.
Qed.
Lemma follows_add_inter_set (s t : imap) o : follows (cm_add_intersection_set X k M s t o) (m_add_intersection_set X k M s t o).
Proof.
  unfold cm_add_intersection_set, m_add_intersection_set. destruct (nodes o); [ag|]. ag1; [ag|]. destruct a as [[lwb upb]|]; ag.
  apply follows_cfold. intros; apply follows_add_inter_itv.
Qed.
End CrashMapFollows.
