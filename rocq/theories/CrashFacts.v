(** Running out of memory in an interval set (proofs). *)
From Verif Require Export CrashModel SetOps.

(* ------------------------------------------------------------ relation to the original *)
(** m does what r does, allocating c segments, and throws if that is too many *)
Definition follows {T A} (m : cm T A) (r : res A) : Prop := exists c, forall n,
  (c <= n -> m n = match r with Ok a => Fine (n - c) a | Err e => Bad e end) /\
  (n < c -> exists t, m n = Thrown t).
Lemma follows_lift {T A} (r : res A) : follows (T := T) (lift r) r.
Proof. exists 0. intros n. split; [|lia]. intros _. unfold lift. rewrite Nat.sub_0_r. auto. Qed.
Lemma follows_ret {T A} (a : A) : follows (T := T) (cret a) (Ok a).
Proof. exists 0. intros n. split; [|lia]. intros _. unfold cret. rewrite Nat.sub_0_r. auto. Qed.
Lemma follows_bind {T A B} (m : cm T A) r (f : A -> cm T B) g : follows m r -> (forall a, follows (f a) (g a)) -> follows (cbind m f) (bind r g).
Proof.
  intros (c & H) G. destruct r as [a|e].
  - destruct (G a) as (c' & H'). exists (c + c'). intros n. unfold cbind. split.
    + intros Hn. rewrite (proj1 (H n)) by lia. rewrite (proj1 (H' (n - c))) by lia. cbn [bind]. replace (n - c - c') with (n - (c + c')) by lia. auto.
    + intros Hn. destruct (Nat.lt_ge_cases n c) as [Hc|Hc]; [destruct (proj2 (H n) Hc) as (t & ->); eauto|].
      rewrite (proj1 (H n)) by auto. apply H'. lia.
  - exists c. intros n. unfold cbind. split; intros Hn; [rewrite (proj1 (H n)) by auto; auto|]. destruct (proj2 (H n) Hn) as (t & ->). eauto.
Qed.

(** every exception leaves a container with P *)
Definition throws {T A} (m : cm T A) (P : T -> Prop) : Prop := forall n t, m n = Thrown t -> P t.
Lemma throws_lift {T A} (r : res A) P : throws (T := T) (lift r) P.
Proof. intros n t. unfold lift. destruct r; discriminate. Qed.
Lemma throws_ret {T A} (a : A) P : throws (T := T) (cret a) P.
Proof. intros n t. discriminate. Qed.
Lemma throws_bind {T A B} (m : cm T A) r (f : A -> cm T B) P : follows m r -> throws m P -> (forall a, r = Ok a -> throws (f a) P) -> throws (cbind m f) P.
Proof.
  intros (c & G) H F n t. unfold cbind. destruct (m n) as [n' a|t0|e] eqn:E; [|intros Q; inversion Q; subst; eapply H; eauto|discriminate].
  destruct (Nat.lt_ge_cases n c) as [Hc|Hc]; [destruct (proj2 (G n) Hc) as (? & ?); congruence|]. pose proof (proj1 (G n) Hc) as Q. destruct r as [b|]; [|congruence].
  assert (a = b) by congruence. subst. apply (F b); auto.
Qed.
Lemma throws_ok {T A B} (a : A) (f : A -> cm T B) P : throws (f a) P -> throws (cbind (lift (Ok a)) f) P.
Proof. intros H n t E. eapply H. exact E. Qed.
Lemma throws_impl {T A} (m : cm T A) (P Q : T -> Prop) : throws m P -> (forall t, P t -> Q t) -> throws m Q.
Proof. intros H F n t E. apply F. eapply H; eauto. Qed.

Section CrashFacts.
Context (X : dom) (k : kind).
Context (HX : dom_ok X k).
Notation I := (itv (D X)).

Lemma follows_insert {V} (t : tree (D X) V) a v : follows (c_insert X k t a v) (insert X k t a v).
Proof.
  unfold c_insert. destruct (insert X k t a v) as [[[t' it] []]|e].
  - exists 1. intros [|n]; (split; [try lia|try lia]); eauto. intros _. rewrite Nat.sub_succ, Nat.sub_0_r. auto.
  - exists 0. intros n. rewrite Nat.sub_0_r. split; [auto|lia].
  - exists 0. intros n. split; [auto|lia].
Qed.
Lemma follows_insert_hint {V} (t : tree (D X) V) h a v : follows (c_insert_hint X k t h a v) (insert_hint X k t h a v).
Proof.
  unfold c_insert_hint, insert_hint. apply follows_bind; [apply follows_lift|]. intros _. apply follows_bind; [apply follows_insert|]. intros [[t' it] b]. apply follows_ret.
Qed.
Lemma throws_insert {V} (t : tree (D X) V) a v (P : _ -> Prop) : P t -> throws (c_insert X k t a v) P.
Proof. intros H n t'. unfold c_insert. destruct (insert X k t a v) as [[[u it] []]|e]; try discriminate. destruct n; [|discriminate]. intros Q. inversion Q; subst; auto. Qed.
Lemma throws_insert_hint {V} (t : tree (D X) V) h a v (P : _ -> Prop) : P t -> throws (c_insert_hint X k t h a v) P.
Proof.
  intros H. unfold c_insert_hint. eapply throws_bind; [apply follows_lift|apply throws_lift|]. intros _ _. eapply throws_bind; [apply follows_insert|apply throws_insert; auto|].
  intros [[t' it] b] _. apply throws_ret.
Qed.

Ltac ag := repeat (match goal with |- follows (cbind _ _) _ => idtac end; apply follows_bind; [apply follows_lift || apply follows_insert || apply follows_insert_hint|]; intros);
           repeat match goal with |- context [let '(_, _) := ?p in _] => destruct p end.
Notation sset := (tree (D X) unit).
Lemma follows_front (t : sset) a f : follows (c_add_front X k t a f) (s_add_front X k t a f).
Proof.
  unfold c_add_front, s_add_front. ag. cbn zeta. destruct (negb _); [|apply follows_ret]. ag. apply follows_ret.
Qed.
Lemma follows_segment (t : sset) a f : follows (c_add_segment X k t a f) (s_add_segment X k t a f).
Proof.
  unfold c_add_segment, s_add_segment. ag. cbn zeta. apply follows_bind; [destruct (negb _); [|apply follows_ret]; ag; apply follows_ret|]. intros. ag. apply follows_ret.
Qed.
Lemma follows_main fuel : forall (t : sset) a f l, follows (c_add_main X k fuel t a f l) (s_add_main X k fuel t a f l).
Proof.
  induction fuel as [|fuel IH]; intros t a f l; cbn [c_add_main s_add_main]; [apply (follows_lift (Err Fuel))|].
  destruct (negb _); [|apply follows_ret]. ag. apply follows_bind; [apply follows_segment|]. intros [t' it]. apply IH.
Qed.
Lemma follows_rear (t : sset) a f : follows (c_add_rear X k t a f) (s_add_rear X k t a f).
Proof.
  unfold c_add_rear, s_add_rear. ag. cbn zeta. apply follows_bind; [destruct (negb _); [|apply follows_ret]; ag; apply follows_ret|]. intros t'.
  destruct (negb _); [apply follows_insert_hint|]. destruct (negb _); [|apply follows_ret]. ag. apply follows_insert_hint.
Qed.
Lemma follows_over st (t : sset) a l : follows (c_add_over X k st t a l) (s_add_over X k st t a l).
Proof.
  destruct st; cbn [c_add_over]; try apply follows_lift. cbn [s_add_over]. ag. apply follows_bind; [apply follows_front|]. intros t'.
  apply follows_bind; [apply follows_main|]. intros [[t2 r] it]. apply follows_rear.
Qed.
Theorem follows_add st (t : sset) a : follows (c_add X k st t a) (s_add X k st t a).
Proof.
  unfold c_add, s_add. destruct (is_empty X k a); [apply follows_ret|]. ag. destruct b; [apply follows_lift|]. ag. apply follows_over.
Qed.
Theorem follows_add_hint st (t : sset) h a : follows (c_add_hint X k st t h a) (s_add_hint X k st t h a).
Proof.
  unfold c_add_hint, s_add_hint. destruct (is_empty X k a); [apply follows_ret|]. ag. ag. destruct (itv_eqb _ _ _ _); [apply follows_lift|]. ag. apply follows_over.
Qed.
Theorem follows_subtract (t : sset) a : follows (c_subtract X k t a) (s_subtract X k t a).
Proof.
  unfold c_subtract, s_subtract. destruct (is_empty X k a); [apply follows_ret|]. ag. destruct (iter_eqb _ _); [apply follows_ret|]. ag. cbn zeta.
  apply follows_bind; [destruct (negb _); [|apply follows_ret]; ag; apply follows_ret|]. intros. ag. 
  apply follows_bind; [destruct (negb _); [|apply follows_ret]; ag; apply follows_ret|]. intros. destruct (negb _); [|apply follows_ret]; ag; apply follows_ret.
Qed.

Lemma follows_cfold {T A B} (f : A -> B -> cm T A) g : (forall a b, follows (f a b) (g a b)) -> forall l a, follows (cfold f a l) (foldM g a l).
Proof. intros H l. induction l as [|b l IH]; intros a; cbn [cfold foldM]; [apply follows_ret|]. apply follows_bind; auto. Qed.
Lemma follows_unwind {T A} (t : T) (m : cm T A) r : follows m r -> follows (unwind t m) r.
Proof.
  intros (c & H). exists c. intros n. destruct (H n) as [H1 H2]. unfold unwind. split; intros Hn; [rewrite (H1 Hn); destruct r; auto|]. destruct (H2 Hn) as (u & ->). eauto.
Qed.
Lemma throws_unwind {T A} (t : T) (m : cm T A) : throws (unwind t m) (fun t' => t' = t).
Proof. intros n u. unfold unwind. destruct (m n); intros Q; inversion Q; auto. Qed.
Theorem follows_add_set st (t o : sset) : follows (c_add_set X k st t o) (s_add_set X k st t o).
Proof.
  unfold c_add_set, s_add_set. apply follows_bind; [|intros [u i]; apply follows_ret].
  apply (follows_cfold (fun '(t, prior_) n => c_add_hint X k st t prior_ (nkey n)) (fun '(t, prior_) n => s_add_hint X k st t prior_ (nkey n))). intros [u i] b. apply follows_add_hint.
Qed.
Theorem follows_insert_set st (t o : sset) : follows (c_insert_set X k st t o) (s_insert_set X k st t o).
Proof.
  unfold c_insert_set, s_insert_set. apply follows_cfold. intros u b. apply follows_bind; [apply follows_add_hint|]. intros [v i]. apply follows_ret.
Qed.
Theorem follows_subtract_set (t o : sset) : follows (c_subtract_set X k t o) (s_subtract_set X k t o).
Proof.
  unfold c_subtract_set, s_subtract_set. destruct (nodes o); [apply follows_ret|]. apply follows_bind; [apply follows_lift|]. intros [[lwb upb]|]; [|apply follows_ret].
  apply follows_bind; [apply follows_lift|]. intros l0. apply follows_cfold. intros; apply follows_subtract.
Qed.
Lemma follows_add_intersection_seg st (s t : sset) a : follows (c_add_intersection_seg X k st s t a) (s_add_intersection_seg X k st s t a).
Proof.
  unfold c_add_intersection_seg, s_add_intersection_seg. destruct (is_empty X k a); [apply follows_ret|]. apply follows_bind; [apply follows_lift|]. intros [f p].
  destruct (iter_eqb f p); [apply follows_ret|]. apply follows_bind; [apply follows_lift|]. intros l. apply follows_bind; [|intros [u i]; apply follows_ret].
  apply (follows_cfold (fun '(s, prior_) n => let common_interval := inter X k (nkey n) a in
                  if negb (is_empty X k common_interval)
                  then c_add_hint X k st s prior_ common_interval else cret (s, prior_)) (fun '(s, prior_) n => let common_interval := inter X k (nkey n) a in
                  if negb (is_empty X k common_interval)
                  then s_add_hint X k st s prior_ common_interval else Ok (s, prior_))).
  intros [u i] n. cbn zeta. destruct (negb _); [apply follows_add_hint|apply follows_ret].
Qed.
Theorem follows_and_seg st (t : sset) a : follows (c_and_seg X k st t a) (s_and_seg X k st t a).
Proof. apply follows_unwind, follows_add_intersection_seg. Qed.
Theorem follows_and_set st (t o : sset) : follows (c_and_set X k st t o) (s_and_set X k st t o).
Proof.
  apply follows_unwind. unfold s_and_set, c_add_intersection, s_add_intersection. destruct (nodes o); [apply follows_ret|]. apply follows_bind; [apply follows_lift|]. intros [[lwb upb]|]; [|apply follows_ret].
  apply follows_bind; [apply follows_lift|]. intros l0. apply follows_cfold. intros; apply follows_add_intersection_seg.
Qed.
End CrashFacts.
