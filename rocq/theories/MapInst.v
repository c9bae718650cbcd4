(** Concrete codomains and map types: they show that the hypotheses of the map theorems are
    satisfiable, and they carry the witnesses of the refuted statements. *)
From Verif Require Export MapSpec Instances.
From Verif Require Export MapModel.

(** int without bounds; icl::insert and icl::erase do not exist for it *)
Definition Zco : codomain :=
  Codomain Z Z.eqb Z.ltb 0%Z Z.add Z.sub Z.mul Z.quot Z.land Z.lor Z.lxor Z.lnot
           (fun v _ => v) (fun v _ => v) false true.
(** unsigned without upper bound *)
Definition Nco : codomain :=
  Codomain N N.eqb N.ltb 0%N N.add N.sub N.mul N.div N.land N.lor N.lxor (fun v => v)
           (fun v _ => v) (fun v _ => v) false false.
(** a set type: sets of natural numbers as bit vectors; += is union, -= difference *)
Definition Bco : codomain :=
  Codomain Z Z.eqb Z.ltb 0%Z Z.lor Z.ldiff Z.land Z.land Z.land Z.lor Z.lxor Z.lnot
           Z.lor Z.ldiff true false.
Lemma Zco_ok : eq_ok Zco. Proof. intros v w. apply Z.eqb_eq. Qed.
Lemma Nco_ok : eq_ok Nco. Proof. intros v w. apply N.eqb_eq. Qed.
Lemma Bco_ok : eq_ok Bco. Proof. intros v w. apply Z.eqb_eq. Qed.
Lemma Zco_order : co_order Zco.
Proof. split; [|split]; cbn; intros; lia. Qed.

(** the traits partial_absorber, partial_enricher, total_absorber and total_enricher
    (map.hpp 42-77) with the default combiner inplace_plus and the default section
    inter_section *)
Definition absorber (s : mstyle) : mpar := MPar s true false F_plus F_inter_section.
Definition enricher (s : mstyle) : mpar := MPar s false false F_plus F_inter_section.
Definition tabsorber (s : mstyle) : mpar := MPar s true true F_plus F_inter_section.
Definition tenricher (s : mstyle) : mpar := MPar s false true F_plus F_inter_section.
Definition with_ (f : functor) (p : mpar) : mpar := MPar (mp_style p) (mp_absorbs p) (mp_total p) f (mp_section p).

Lemma Z_proper s a b : proper Zco (MPar s a b F_plus F_inter_section).
Proof. unfold proper, neutral_ok, first_ok. repeat split; cbn; intros; lia. Qed.
Lemma B_proper s a b : proper Bco (MPar s a b F_plus F_inter_section).
Proof. unfold proper, neutral_ok, first_ok. split; [|split; [|split]]; cbn; auto. rewrite andb_false_r. discriminate. Qed.
Lemma N_max_proper s a b g : proper Nco (MPar s a b F_max g).
Proof.
  unfold proper, neutral_ok, first_ok. split; [|split; [|split]]; cbn; auto.
  intros v. destruct (0 <? v)%N eqn:E; auto. apply N.ltb_ge in E. lia.
Qed.
Lemma Z_minus_proper s a b : proper Zco (MPar s a b F_minus F_inter_section).
Proof. unfold proper, neutral_ok, first_ok. repeat split; cbn; intros; lia. Qed.

Lemma Z_monoid : cmonoid Zco F_plus.
Proof. repeat split; cbn; intros; lia. Qed.
Lemma Z_group : cgroup Zco F_plus.
Proof. repeat split; cbn; intros; lia. Qed.
Lemma B_monoid : cmonoid Bco F_plus.
Proof. repeat split; cbn; intros; [apply Z.lor_comm|symmetry; apply Z.lor_assoc]. Qed.
Lemma N_max_monoid : cmonoid Nco F_max.
Proof.
  assert (E : forall a b : N, combine Nco F_max a b = N.max a b).
  { intros a b. cbn. destruct (N.ltb_spec a b); lia. }
  split; [reflexivity|]. split; [|split]; intros; rewrite !E; cbn; lia.
Qed.
