(** Property theorem C92: the text that operator << writes identifies the value.  [show], [showv] write
    domain and associated values; [plain], [readable], [same_borders], [show_Z]: PrintSpec.v. *)
From Verif Require Import PrintSpec PrintThms SetThms MapThms3 MapThms4 Instances MapInst PropMap PropSet QuantSpec QuantInst.
From Verif Require Import MapModel.
From Coq Require Import ZArith.

(* ------------------------------------------------------------------ C92 *)
(** The brackets tell whether the borders belong to the interval. *)
Theorem C92_brackets : forall X k, dom_ok X k -> forall show (a : itv (D X)), (exists x, mem X k a x) ->
  exists c d, print_itv X k show a = [c] ++ show (lo a) ++ lit "," ++ show (up a) ++ [d] /\
  (mem X k a (lo a) /\ c = "["%char \/ ~ mem X k a (lo a) /\ c = "("%char) /\ (mem X k a (up a) /\ d = "]"%char \/ ~ mem X k a (up a) /\ d = ")"%char).
Proof. exact thm_shape. Qed.
(** intervals *)
Theorem C92_interval : forall X k, dom_ok X k -> forall show, plain show -> forall a b, print_itv X k show a = print_itv X k show b ->
  itv_eqb X k a b = true /\ is_empty X k a = is_empty X k b /\ (is_empty X k a = false -> same_borders X k a b).
Proof. exact thm_itv. Qed.
Theorem C92_interval_text : forall X k, dom_ok X k -> forall show a b, k <> DD -> is_empty X k a = false -> is_empty X k b = false ->
  itv_eqb X k a b = true -> print_itv X k show a = print_itv X k show b.
Proof. exact thm_itv_text. Qed.
(** discrete_intervals write the borders they were built with: [1,3] == (0,4) *)
Theorem C92_discrete_interval_refuted : exists a b, dom_ok Zdom DD /\ is_empty Zdom DD a = false /\ is_empty Zdom DD b = false /\
  itv_eqb Zdom DD a b = true /\ print_itv Zdom DD show_Z a = lit "[1,3]" /\ print_itv Zdom DD show_Z b = lit "(0,4)".
Proof.
  exists (Itv 1 3 b_closed)%Z, (Itv 0 4 b_open)%Z. split; [apply Zdom_ok; discriminate|]. repeat split; vm_compute; reflexivity.
Qed.
(** interval sets of any styles *)
Theorem C92_set : forall X k, dom_ok X k -> forall show, plain show -> forall st st' t u, reach X k st t -> reach X k st' u ->
  print_set X k show t = print_set X k show u -> s_eqb X k t u = true.
Proof.
  intros X k HX show P st st' t u Ht Hu E. apply (f_equal (fun l => l ++ [])) in E. exact (proj1 (thm_set X k HX show P st st' t u _ _ Ht Hu E)).
Qed.
Theorem C92_set_text : forall X k, dom_ok X k -> forall show st st' t u, k <> DD -> reach X k st t -> reach X k st' u ->
  s_eqb X k t u = true -> print_set X k show t = print_set X k show u.
Proof. intros X k HX show st st' t u. exact (thm_set_text X k HX show st st' t u). Qed.
(** interval_sets have the same text if and only if they have the same elements *)
Theorem C92_set_elements : forall X k, dom_ok X k -> k <> DD -> forall show, plain show -> forall t u, reach X k Joining t -> reach X k Joining u ->
  (print_set X k show t = print_set X k show u <-> forall x, cmem X k t x <-> cmem X k u x).
Proof.
  intros X k HX Hk show P t u Ht Hu. rewrite <- (thm_canonical X k HX t u Ht Hu). split; [exact (C92_set X k HX show P _ _ t u Ht Hu)|].
  exact (C92_set_text X k HX show _ _ t u Hk Ht Hu).
Qed.
(** interval maps of any traits *)
Theorem C92_map : forall X k, dom_ok X k -> forall show, plain show -> forall CC, eq_ok CC -> forall showv : CC -> text, readable showv ->
  forall p p' q t u, mreach X k CC p t -> mreach X k CC p' u -> print_map X k show showv t = print_map X k show showv u -> m_eqb X k (mt CC q) t u = true.
Proof.
  intros X k HX show P CC Hco showv R p p' q t u Ht Hu E. apply (f_equal (fun l => l ++ [])) in E. exact (proj1 (thm_map X k HX show P CC Hco showv R p p' q t u _ _ Ht Hu E)).
Qed.
Theorem C92_map_text : forall X k, dom_ok X k -> forall show CC, eq_ok CC -> forall (showv : CC -> text) p p' q t u, k <> DD ->
  mreach X k CC p t -> mreach X k CC p' u -> m_eqb X k (mt CC q) t u = true -> print_map X k show showv t = print_map X k show showv u.
Proof. intros X k HX show CC Hco showv p p' q t u. exact (thm_map_text X k HX show CC Hco showv p p' q t u). Qed.
(** interval_maps have the same text if and only if they are the same function *)
Theorem C92_map_values : forall X k, dom_ok X k -> k <> DD -> forall show, plain show -> forall CC, eq_ok CC -> forall showv : CC -> text, readable showv ->
  forall p p' t u, mp_style p = MJoin -> mp_style p' = MJoin -> mreach X k CC p t -> mreach X k CC p' u ->
  (print_map X k show showv t = print_map X k show showv u <-> forall x, at_ X k CC t x = at_ X k CC u x).
Proof.
  intros X k HX Hk show P CC Hco showv R p p' t u S S' Ht Hu. rewrite <- (thm_meqb_joined X k HX CC Hco p p' t u S S' Ht Hu).
  split; [exact (C92_map X k HX show P CC Hco showv R p p' p t u Ht Hu)|exact (C92_map_text X k HX show CC Hco showv p p' p t u Hk Ht Hu)].
Qed.
(** element containers: [ereach], [sreach] containers are sequences without duplicates *)
Theorem C92_element_map : forall X show, plain show -> forall V (showv : V -> text), readable showv -> forall m o : list (D X * V),
  print_emap X show showv m = print_emap X show showv o <-> m = o.
Proof.
  intros X show P V showv R m o. split; [|intros ->; reflexivity]. intros E. apply (f_equal (fun l => l ++ [])) in E. exact (proj1 (emap_split X show P showv R m o _ _ E)).
Qed.
Theorem C92_element_set : forall X show, plain show -> forall s o, print_eset X show s = print_eset X show o <-> s = o.
Proof.
  intros X show P s o. split; [|intros ->; reflexivity]. intros E. apply (f_equal (fun l => l ++ [])) in E. exact (proj1 (eset_split X show P s o _ _ E)).
Qed.
(** Which values are readable: plain ones such as numbers, sets, and maps of readable values. *)
Theorem C92_plain : forall A (f : A -> text), plain f -> readable f.
Proof. exact @plain_readable. Qed.
Theorem C92_numbers : plain show_Z.
Proof. exact Z_plain. Qed.
Theorem C92_sets_readable : forall X show, plain show -> readable (print_eset X show).
Proof. intros X show P v w r s E. apply (eset_split X show P) in E. destruct E as [-> E]. injection E as E. auto. Qed.
Theorem C92_maps_readable : forall X show, plain show -> forall V (showv : V -> text), readable showv -> readable (print_emap X show showv).
Proof. intros X show P V showv R v w r s E. apply (emap_split X show P showv R) in E. destruct E as [-> E]. injection E as E. auto. Qed.
(** A text that is followed by others can be told apart: interval sets and maps as parts of a text. *)
Theorem C92_followed : forall X k, dom_ok X k -> forall show, plain show -> forall r s,
  (forall st st' t u, reach X k st t -> reach X k st' u -> print_set X k show t ++ r = print_set X k show u ++ s -> s_eqb X k t u = true /\ r = s) /\
  (forall CC, eq_ok CC -> forall showv : CC -> text, readable showv -> forall p p' q t u, mreach X k CC p t -> mreach X k CC p' u ->
     print_map X k show showv t ++ r = print_map X k show showv u ++ s -> m_eqb X k (mt CC q) t u = true /\ r = s).
Proof.
  intros X k HX show P r s. split; [intros st st' t u; exact (thm_set X k HX show P st st' t u r s)|].
  intros CC Hco showv R p p' q t u. exact (thm_map X k HX show P CC Hco showv R p p' q t u r s).
Qed.
(** Finding: strings are written as they are, so different interval_map<int, string>s may have one text. *)
Notation strs := (string_co ascii ascii_dec).
Theorem C92_strings_refuted : exists a, mreach Zdom RO strs (enricher MJoin) a /\ exists b, mreach Zdom RO strs (enricher MJoin) b /\
  print_map Zdom RO show_Z (fun s : C strs => s) a = lit "{([0,1)->x)([5,6)->y)}" /\
  print_map Zdom RO show_Z (fun s : C strs => s) b = lit "{([0,1)->x)([5,6)->y)}" /\
  m_eqb Zdom RO (mt strs (enricher MJoin)) a b = false /\ segs Zdom strs a = [(zi 0 1, lit "x"); (zi 5 6, lit "y")] /\ segs Zdom strs b = [(zi 0 1, lit "x)([5,6)->y")].
Proof.
  mbuilt (string_co ascii ascii_dec) (enricher MJoin) [(zi 0 1, lit "x"); (zi 5 6, lit "y")].
  mbuilt (string_co ascii ascii_dec) (enricher MJoin) [(zi 0 1, lit "x)([5,6)->y")]. repeat split; vm_compute; reflexivity.
Qed.
Example C92_ex : dom_ok Zdom RO /\ plain show_Z /\ readable show_Z /\
  print_itv Zdom RO show_Z (zi (-3) 12) = lit "[-3,12)" /\ print_itv Zdom RO show_Z (zi 4 4) = lit "[)" /\
  print_eset Zdom show_Z [(-1, tt); (20, tt)]%Z = lit "{-1 20 }" /\ print_emap Zdom show_Z show_Z [(-1, 5); (2, -7)]%Z = lit "{(-1->5)(2->-7)}" /\
  (exists t, reach Zdom RO Joining t /\ print_set Zdom RO show_Z t = lit "{[0,4)[10,12)}") /\
  exists m, mreach Zdom RO Zco (absorber MJoin) m /\ print_map Zdom RO show_Z show_Z m = lit "{([0,2)->1)([2,4)->3)([4,6)->2)}".
Proof.
  split; [apply Zdom_ok; discriminate|]. split; [exact Z_plain|]. split; [exact (plain_readable _ Z_plain)|].
  do 4 (split; [vm_compute; reflexivity|]). split.
  - destruct (s_add Zdom RO Joining t_empty (zi 0 4)) as [[t i]|] eqn:E; [|discriminate E].
    pose proof (R_add Zdom RO Joining _ _ _ _ (R_clear Zdom RO Joining) E) as R. vm_compute in E. injection E as <- _.
    match goal with R : reach _ _ _ ?t |- _ => destruct (s_add Zdom RO Joining t (zi 10 12)) as [[t' i']|] eqn:E' end; [|discriminate E'].
    pose proof (R_add Zdom RO Joining _ _ _ _ R E') as R'. vm_compute in E'. injection E' as <- _. eexists. split; [exact R'|vm_compute; reflexivity].
  - mbuilt Zco (absorber MJoin) [sg 0 4 1; sg 2 6 2]. vm_compute. reflexivity.
Qed.
