(** Erasure through iterators: erase(position) and erase(first, past) remove consecutive
    nodes of the tree and keep its invariants (proofs). *)
From Verif Require Export TreeFacts.

Section EraseIter.
Context (X : dom) (k : kind).
Context (HX : dom_ok X k).
Context {V : Type}.
Notation node := (node (D X) V).
Notation tree := (tree (D X) V).

Lemma wf_drop (L M R : list node) f : wf (X:=X) (Tree (L ++ M ++ R) f) -> wf (X:=X) (Tree (L ++ R) f).
Proof.
  induction M as [|m M IH]; auto. intros W. apply IH. cbn [app] in W. eapply (wf_cons_drop X). exact W.
Qed.
Lemma inv_drop (t : tree) L M R : inv k t -> nodes t = L ++ M ++ R -> inv k (Tree (L ++ R) (fresh t)).
Proof.
  intros [W S] E. split.
  - eapply wf_drop. apply (wf_nodes X _ _ W E).
  - cbn. rewrite E in S. apply (srt_app X k) in S. destruct S as (S1 & S2 & S3). apply (srt_app X k) in S2. destruct S2 as (S2 & S4 & S5).
    apply (srt_app X k). split; auto. split; auto. intros n m Hn Hm. apply S3; auto. apply in_app_iff; auto.
Qed.
Lemma erase_it_ok (t t' : tree) it : erase_it t it = Ok t' ->
  exists L n R, nodes t = L ++ n :: R /\ it = Some (nid n) /\ t' = Tree (L ++ R) (fresh t).
Proof.
  unfold erase_it. destruct it as [i|]; [|discriminate]. destruct (split_at i (nodes t)) as [[[L n] R]|] eqn:E; [|discriminate].
  intros Q. apply split_at_some in E. destruct E as [E <-]. exists L, n, R. split; auto. split; auto. congruence.
Qed.
Lemma erase_range_ok (t t' : tree) first past : erase_range t first past = Ok t' ->
  exists L M R, nodes t = L ++ M ++ R /\ first = hd_it (M ++ R) /\ past = hd_it R /\ t' = Tree (L ++ R) (fresh t).
Proof.
  unfold erase_range. destruct first as [i|].
  - destruct (split_at i (nodes t)) as [[[L n] R]|] eqn:E; [|discriminate]. apply split_at_some in E. destruct E as [E <-].
    destruct (from_it past (n :: R)) as [rest|] eqn:F; [|discriminate]. intros Q.
    destruct past as [j|]; unfold from_it in F.
    + destruct (split_at j (n :: R)) as [[[A m] B]|] eqn:G; [|discriminate]. apply split_at_some in G. destruct G as [G <-].
      exists L, A, rest. assert (rest = m :: B) by congruence. subst. rewrite <- G. split; auto. split; auto. split; auto. congruence.
    + exists L, (n :: R), []. assert (rest = []) by congruence. subst. rewrite ?app_nil_r in *. split; auto. split; auto. split; auto. congruence.
  - destruct past; [discriminate|]. intros Q. exists (nodes t), [], []. cbn [app]. rewrite !app_nil_r. split; auto. split; auto. split; auto. rewrite tree_eta. congruence.
Qed.
Lemma erase_it_inv (t t' : tree) it : inv k t -> erase_it t it = Ok t' -> inv k t' /\ List.incl (nodes t') (nodes t).
Proof.
  intros Hi E. apply erase_it_ok in E. destruct E as (L & n & R & E & _ & ->). split.
  - apply (inv_drop t L [n] R); auto.
  - cbn. intros m. rewrite E, !in_app_iff. cbn. tauto.
Qed.
Lemma erase_range_inv (t t' : tree) first past : inv k t -> erase_range t first past = Ok t' -> inv k t' /\ List.incl (nodes t') (nodes t).
Proof.
  intros Hi E. apply erase_range_ok in E. destruct E as (L & M & R & E & _ & _ & ->). split.
  - apply (inv_drop t L M R); auto.
  - cbn. intros m. rewrite E, !in_app_iff. tauto.
Qed.
End EraseIter.
