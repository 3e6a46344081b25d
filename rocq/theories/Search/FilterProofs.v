(** Proofs about filter_records (C50). *)
From Coq Require Import String List Arith ZArith Bool Lia Permutation.
From Verif.Base Require Import Py.
From Verif.Graph Require Import Model.
From Verif.Registry Require Import Model.
From Verif.Registry Require BlockProofs.
From Verif.Search Require Import Model Spec.
Import ListNotations.
Open Scope list_scope.
Notation params_eqb_spec := BlockProofs.params_eqb_spec.
Notation params_eqb_refl := BlockProofs.params_eqb_refl.
Notation mem_spec := BlockProofs.mem_spec.

Lemma mem_false v l : mem v l = false <-> ~ In v l.
Proof. rewrite <- mem_spec. destruct (mem v l); split; congruence. Qed.
Lemma existsb_false {A} (f : A -> bool) l : existsb f l = false <-> forall x, In x l -> f x = false.
Proof.
  split.
  - intros H x I. destruct (f x) eqn:E; [|reflexivity]. exfalso.
    assert (K : existsb f l = true) by (apply existsb_exists; eauto). congruence.
  - intros H. destruct (existsb f l) eqn:E; [|reflexivity]. apply existsb_exists in E as (x & I & K).
    rewrite (H x I) in K. discriminate.
Qed.

Lemma node_eqb_eq a b : node_eqb a b = true <-> a = b.
Proof. destruct a, b; cbn; rewrite ?Nat.eqb_eq; split; congruence. Qed.
Lemma in_members_In x m : in_members x m = true <-> In x m.
Proof.
  unfold in_members. rewrite existsb_exists. split.
  - intros (y & I & E). apply node_eqb_eq in E. subst. exact I.
  - intros I. exists x. split; [exact I|]. apply node_eqb_eq. reflexivity.
Qed.
Lemma subset_In a b : subset a b = true <-> forall v, In v a -> In v b.
Proof. unfold subset. rewrite forallb_forall. split; intros H v I; apply mem_spec; apply H; exact I. Qed.
Lemma set_eqb_In a b : set_eqb a b = true <-> forall v, In v a <-> In v b.
Proof. unfold set_eqb. rewrite andb_true_iff, !subset_In. firstorder. Qed.

Lemma strict_subset_part r o : strict_subset (r_tensors r) (r_tensors o) = true <-> part_of r o.
Proof.
  unfold strict_subset, part_of. rewrite andb_true_iff, negb_true_iff, forallb_forall. split.
  - intros [A B]. split; [intros x I; apply in_members_In, A, I|].
    destruct (existsb (fun x => negb (in_members x (r_tensors r))) (r_tensors o)) eqn:E.
    + apply existsb_exists in E as (x & I & K). exists x. split; [exact I|]. rewrite <- in_members_In.
      rewrite negb_true_iff in K. congruence.
    + exfalso. assert (T : forallb (fun x => in_members x (r_tensors r)) (r_tensors o) = true).
      { apply forallb_forall. intros x I. rewrite existsb_false in E. specialize (E x I).
        rewrite negb_false_iff in E. exact E. }
      congruence.
  - intros [A (x & I & N)]. split; [intros y J; apply in_members_In, A, J|].
    destruct (forallb _ (r_tensors o)) eqn:F; [|reflexivity]. exfalso. rewrite forallb_forall in F.
    apply N, in_members_In, F, I.
Qed.

(* ------------------------------------------------------------------------ *)
(** * Grouping *)

Definition keys (d : list (params * list record)) : list params := map fst d.
Lemma add_record_keys d r : keys (add_record d r) = if existsb (params_eqb (r_params r)) (keys d) then keys d else keys d ++ [r_params r].
Proof.
  induction d as [|[p l] d IH]; [reflexivity|]. cbn [add_record keys map fst existsb].
  assert (S : params_eqb (r_params r) p = params_eqb p (r_params r)).
  { destruct (params_eqb p (r_params r)) eqn:E.
    - apply params_eqb_spec in E. subst. apply params_eqb_refl.
    - destruct (params_eqb (r_params r) p) eqn:E'; [|reflexivity]. apply params_eqb_spec in E'. subst.
      rewrite params_eqb_refl in E. discriminate. }
  rewrite S. destruct (params_eqb p (r_params r)); cbn [orb]; [reflexivity|].
  cbn. unfold keys in IH. rewrite IH. destruct (existsb _ _); reflexivity.
Qed.
Lemma existsb_key p ps : existsb (params_eqb p) ps = true <-> In p ps.
Proof.
  rewrite existsb_exists. split.
  - intros (q & I & E). apply params_eqb_spec in E. subst. exact I.
  - intros I. exists p. split; [exact I|apply params_eqb_refl].
Qed.
Lemma add_record_nodup d r : NoDup (keys d) -> NoDup (keys (add_record d r)).
Proof.
  intros N. rewrite add_record_keys. destruct (existsb _ _) eqn:E; [exact N|].
  apply NoDup_rev in N. rewrite <- (rev_involutive (keys d ++ _)). apply NoDup_rev. rewrite rev_app_distr. cbn.
  constructor; [|exact N]. rewrite <- in_rev, <- existsb_key. congruence.
Qed.

(** The list of a key. *)
Fixpoint at_key (d : list (params * list record)) (p : params) : list record :=
  match d with
  | [] => []
  | (q, l) :: d' => if params_eqb q p then l else at_key d' p
  end.
Lemma at_key_In d p l : NoDup (keys d) -> In (p, l) d -> at_key d p = l.
Proof.
  induction d as [|[q m] d IH]; [intros _ []|]. cbn [keys map fst at_key]. intros N. apply NoDup_cons_iff in N as [A B].
  intros [E|I].
  - injection E as -> ->. rewrite params_eqb_refl. reflexivity.
  - destruct (params_eqb q p) eqn:E; [|apply IH; assumption].
    apply params_eqb_spec in E. subst. exfalso. apply A. apply in_map_iff. exists (p, l). auto.
Qed.
Lemma at_key_absent d p : ~ In p (keys d) -> at_key d p = [].
Proof.
  induction d as [|[q m] d IH]; [reflexivity|]. cbn [keys map fst at_key]. intros N.
  destruct (params_eqb q p) eqn:E; [|apply IH; intros I; apply N; right; exact I].
  apply params_eqb_spec in E. subst. exfalso. apply N. left. reflexivity.
Qed.
Lemma at_key_present d p : In p (keys d) -> In (p, at_key d p) d.
Proof.
  induction d as [|[q m] d IH]; [intros []|]. cbn [keys map fst at_key]. intros [->|I].
  - rewrite params_eqb_refl. left. reflexivity.
  - destruct (params_eqb q p) eqn:E.
    + apply params_eqb_spec in E. subst. left. reflexivity.
    + right. apply IH, I.
Qed.
Lemma at_key_add d r p : at_key (add_record d r) p = if params_eqb (r_params r) p then at_key d p ++ [r] else at_key d p.
Proof.
  induction d as [|[q m] d IH]; cbn [add_record at_key].
  - destruct (params_eqb (r_params r) p); reflexivity.
  - destruct (params_eqb q (r_params r)) eqn:E; cbn [at_key].
    + apply params_eqb_spec in E. subst q. destruct (params_eqb (r_params r) p); reflexivity.
    + rewrite IH. destruct (params_eqb q p) eqn:E2; [|reflexivity].
      apply params_eqb_spec in E2. subst q. destruct (params_eqb (r_params r) p) eqn:E3; [|reflexivity].
      apply params_eqb_spec in E3. subst p. rewrite params_eqb_refl in E. discriminate.
Qed.

Definition of_key (p : params) (r : record) : bool := params_eqb (r_params r) p.
Lemma fold_add l : forall d, NoDup (keys d) ->
  NoDup (keys (fold_left add_record l d)) /\
  (forall p, at_key (fold_left add_record l d) p = at_key d p ++ filter (of_key p) l) /\
  (forall p, In p (keys (fold_left add_record l d)) <-> In p (keys d) \/ exists r, In r l /\ r_params r = p).
Proof.
  induction l as [|r l IH]; intros d N.
  - cbn. split; [exact N|]. split; [intros p; rewrite app_nil_r; reflexivity|]. intros p. split; [auto|].
    intros [K|(r & [] & _)]. exact K.
  - cbn [fold_left]. destruct (IH (add_record d r) (add_record_nodup d r N)) as (A & B & C).
    split; [exact A|]. split.
    + intros p. rewrite B, at_key_add. cbn [filter]. change (of_key p r) with (params_eqb (r_params r) p).
      destruct (params_eqb (r_params r) p); [rewrite <- app_assoc; reflexivity|reflexivity].
    + intros p. rewrite C, add_record_keys. destruct (existsb _ (keys d)) eqn:E.
      * apply existsb_key in E. split.
        -- intros [K|(x & I & X)]; [auto|]. right. exists x. split; [right|]; assumption.
        -- intros [K|(x & [<-|I] & X)]; [auto| |right; eauto]. subst. auto.
      * rewrite in_app_iff. split.
        -- intros [[K|[<-|[]]]|(x & I & X)]; [auto| |].
           ++ right. exists r. split; [left|]; reflexivity.
           ++ right. exists x. split; [right|]; assumption.
        -- intros [K|(x & [<-|I] & X)]; [auto| |right; eauto]. left. right. left. exact X.
Qed.

Lemma filter_key d p : grouped d -> filter (of_key p) (concat (map snd d)) = at_key d p.
Proof.
  intros [N G]. induction d as [|[q l] d IH]; [reflexivity|]. cbn [map snd concat at_key keys fst] in *.
  apply NoDup_cons_iff in N as [A B]. rewrite filter_app, IH; [|exact B|intros; eapply G; [right|]; eauto].
  destruct (params_eqb q p) eqn:E.
  - apply params_eqb_spec in E. subst q. rewrite at_key_absent by exact A. rewrite app_nil_r.
    assert (F : forall r, In r l -> r_params r = p) by (intros r I; apply (G p l r); [left; reflexivity|exact I]).
    clear - F. induction l as [|r l IH]; [reflexivity|]. cbn [filter]. unfold of_key at 1.
    rewrite (F r) by (left; reflexivity). rewrite params_eqb_refl. f_equal. apply IH. intros x I. apply F. right. exact I.
  - assert (F : forall r, In r l -> r_params r = q) by (intros r I; apply (G q l r); [left; reflexivity|exact I]).
    replace (filter (of_key p) l) with (@nil record); [reflexivity|].
    clear - F E. induction l as [|r l IH]; [reflexivity|]. cbn [filter]. unfold of_key at 1.
    rewrite (F r) by (left; reflexivity). rewrite E. apply IH. intros x I. apply F. right. exact I.
Qed.
Lemma filter_filter {A} (f h : A -> bool) l : filter f (filter h l) = filter h (filter f l).
Proof.
  induction l as [|x l IH]; [reflexivity|]. cbn. destruct (h x) eqn:H, (f x) eqn:F; cbn; rewrite ?H, ?F, ?IH; reflexivity.
Qed.

(* ------------------------------------------------------------------------ *)
(** * The filters *)

Lemma grouped_filter d f : grouped d -> grouped (filter f d).
Proof.
  intros [N G]. split.
  - clear G. induction d as [|[p l] d IH]; [constructor|]. cbn in N. apply NoDup_cons_iff in N as [A B]. cbn.
    destruct (f (p, l)); [|auto]. cbn. constructor; [|auto]. intros I. apply A.
    apply in_map_iff in I as (x & E & I). apply filter_In in I as [I _]. apply in_map_iff. eauto.
  - intros p l r I. apply filter_In in I as [I _]. apply (G p l r I).
Qed.

Definition eligibleb (linked : list (list nat)) (user : list nat) (p : params) : bool :=
  negb (existsb (fun v => mem v user) (vars_of p)) &&
  negb (existsb (fun grp => existsb (fun v => mem v grp) (vars_of p) && negb (set_eqb (vars_of p) grp)) linked).
Lemma eligibleb_spec linked user r : eligibleb linked user (r_params r) = true <-> eligible linked user r.
Proof.
  unfold eligibleb, eligible, touches, violates, uses_var. rewrite andb_true_iff, !negb_true_iff, !existsb_false. split.
  - intros [A B]. split.
    + intros (v & I & J). specialize (A v I). apply mem_false in A. contradiction.
    + intros grp I ((v & J & K) & N). specialize (B grp I). apply andb_false_iff in B as [B|B].
      * rewrite existsb_false in B. specialize (B v J). apply mem_false in B. contradiction.
      * apply negb_false_iff in B. apply N, set_eqb_In, B.
  - intros [A B]. split.
    + intros v I. apply mem_false. intros J. apply A. eauto.
    + intros grp I. apply andb_false_iff. destruct (set_eqb (vars_of (r_params r)) grp) eqn:E; [auto|left].
      apply existsb_false. intros v J. apply mem_false. intros K. apply (B grp I). split; [eauto|].
      intros S. apply set_eqb_In in S. congruence.
Qed.

Definition first_two (linked : list (list nat)) (user : list nat) (d : list (params * list record)) :=
  filter_grouped_variable_records linked (filter_user_registered_records d user).
Lemma first_two_filter linked user d : first_two linked user d = filter (fun pl => eligibleb linked user (fst pl)) d.
Proof.
  unfold first_two, filter_grouped_variable_records, filter_user_registered_records, eligibleb.
  induction d as [|[p l] d IH]; [reflexivity|]. cbn [filter fst].
  destruct (negb (existsb (fun v => mem v user) (vars_of p))); cbn [andb]; [|exact IH].
  cbn [filter fst]. destruct (negb _); [f_equal|]; exact IH.
Qed.
Lemma candidate_first_two linked user d r : grouped d ->
  candidate (first_two linked user d) r <-> candidate d r /\ eligible linked user r.
Proof.
  intros G. unfold candidate. rewrite first_two_filter. split.
  - intros (l & I & J). apply filter_In in I as [I E]. split; [eauto|]. apply eligibleb_spec, E.
  - intros [(l & I & J) E]. exists l. split; [|exact J]. apply filter_In. split; [exact I|]. apply eligibleb_spec, E.
Qed.

Lemma In_flat d r : grouped d -> In r (concat (map snd d)) <-> candidate d r.
Proof.
  intros [N G]. rewrite in_concat. unfold candidate. split.
  - intros (l & I & J). apply in_map_iff in I as ([p m] & <- & I). exists m. rewrite (G p m r I J). auto.
  - intros (l & I & J). exists l. split; [|exact J]. apply in_map_iff. exists (r_params r, l). auto.
Qed.

Definition absorbedb (flat : list record) (r : record) : bool :=
  existsb (fun v => existsb (fun o => strict_subset (r_tensors r) (r_tensors o))
                            (filter (fun r => mem v (vars_of (r_params r))) flat)) (vars_of (r_params r)).
Lemma absorbedb_spec flat r : absorbedb flat r = true <->
  exists o v, In o flat /\ part_of r o /\ uses_var r v /\ uses_var o v.
Proof.
  unfold absorbedb. rewrite existsb_exists. split.
  - intros (v & I & K). apply existsb_exists in K as (o & J & S). apply filter_In in J as [J M].
    apply mem_spec in M. apply strict_subset_part in S. exists o, v. auto.
  - intros (o & v & J & S & I & M). exists v. split; [exact I|]. apply existsb_exists. exists o.
    split; [apply filter_In; split; [exact J|apply mem_spec, M]|apply strict_subset_part, S].
Qed.

Lemma filter_nil_iff {A} (f : A -> bool) l : filter f l = [] <-> forall x, In x l -> f x = false.
Proof.
  induction l as [|a l IH]; cbn; [split; [intros _ x []|auto]|]. destruct (f a) eqn:E; split.
  - discriminate.
  - intros H. specialize (H a (or_introl eq_refl)). congruence.
  - intros H x [<-|I]; [exact E|]. apply IH; assumption.
  - intros H. apply IH. auto.
Qed.

(** The dictionary before the ambiguity check. *)
Definition surviving (linked : list (list nat)) (user : list nat) (d : list (params * list record)) :=
  filter_subgraph_records (first_two linked user d).
Definition keepb (linked : list (list nat)) (user : list nat) (d : list (params * list record)) (r : record) : bool :=
  eligibleb linked user (r_params r) && negb (absorbedb (concat (map snd (first_two linked user d))) r).
Lemma keepb_spec linked user d r : grouped d -> keepb linked user d r = true <-> kept linked user d r.
Proof.
  intros G. unfold keepb, kept. rewrite andb_true_iff, eligibleb_spec, negb_true_iff.
  assert (Gf : grouped (first_two linked user d)) by (rewrite first_two_filter; apply grouped_filter, G).
  assert (A : absorbedb (concat (map snd (first_two linked user d))) r = true <-> absorbed_sharing linked user d r).
  { rewrite absorbedb_spec. unfold absorbed_sharing. split.
    - intros (o & v & I & P & U & W). apply (In_flat _ _ Gf), (candidate_first_two _ _ _ _ G) in I as [I E]. exists o, v. auto 6.
    - intros (o & v & I & E & P & U & W). exists o, v. split; [|auto]. apply (In_flat _ _ Gf), (candidate_first_two _ _ _ _ G). auto. }
  rewrite <- A. destruct (absorbedb _ r); split; intros [K1 K2]; split; auto; congruence.
Qed.
Lemma surviving_spec linked user d : grouped d ->
  grouped (surviving linked user d) /\
  forall p l, In (p, l) (surviving linked user d) <->
    l <> [] /\ exists l0, In (p, l0) d /\ l = filter (keepb linked user d) l0.
Proof.
  intros G. assert (Gf : grouped (first_two linked user d)) by (rewrite first_two_filter; apply grouped_filter, G).
  unfold surviving, filter_subgraph_records. set (D := first_two linked user d) in *.
  set (flat := concat (map snd D)).
  change (filter _ flat) with (filter (fun r => negb (absorbedb flat r)) flat).
  set (L := filter (fun r => negb (absorbedb flat r)) flat).
  destruct (fold_add L [] (NoDup_nil _)) as (A & B & C). cbn [at_key app keys map] in B, C.
  assert (K : forall p, at_key (fold_left add_record L []) p = filter (keepb linked user d) (at_key d p)).
  { intros p. rewrite B. unfold L. rewrite filter_filter. unfold flat. rewrite (filter_key D p Gf). fold flat.
    unfold D. rewrite first_two_filter.
    destruct (in_dec (fun a b => match params_eqb a b as x return (params_eqb a b = x -> {a = b} + {a <> b}) with
        | true => fun E => left (proj1 (params_eqb_spec a b) E)
        | false => fun E => right (fun F => Bool.diff_false_true (eq_trans (eq_sym E) (proj2 (params_eqb_spec a b) F))) end eq_refl)
        p (keys d)) as [I|I].
    - pose proof (at_key_present d p I) as J. destruct G as [N G].
      destruct (eligibleb linked user p) eqn:E.
      + rewrite (at_key_In _ p (at_key d p)); [|apply grouped_filter; split; assumption|apply filter_In; auto].
        apply filter_ext_in. intros r R. unfold keepb. rewrite (G _ _ _ J R), E. reflexivity.
      + rewrite at_key_absent.
        * cbn. symmetry. apply filter_nil_iff. intros r R. unfold keepb. rewrite (G _ _ _ J R), E. reflexivity.
        * intros M. apply in_map_iff in M as ([q m] & X & M). cbn in X. subst q. apply filter_In in M as [_ M]. cbn in M. congruence.
    - rewrite !at_key_absent; [reflexivity|exact I|]. intros M. apply in_map_iff in M as ([q m] & X & M). cbn in X. subst q.
      apply filter_In in M as [M _]. apply I. apply in_map_iff. exists (p, m). auto. }
  assert (NE : forall p, In p (keys (fold_left add_record L [])) <-> at_key (fold_left add_record L []) p <> []).
  { intros p. rewrite C, B. split.
    - intros [[]|(r & I & <-)]. intros Z. pose proof (proj1 (filter_nil_iff _ _) Z r I) as X.
      unfold of_key in X. rewrite params_eqb_refl in X. discriminate.
    - intros Z. right. destruct (filter (of_key p) L) as [|r l] eqn:F; [congruence|].
      assert (I : In r (filter (of_key p) L)) by (rewrite F; left; reflexivity).
      apply filter_In in I as [I E]. apply params_eqb_spec in E. eauto. }
  split; [split; [exact A|]|].
  - intros p l r I J. rewrite <- (at_key_In _ _ _ A I), B in J. apply filter_In in J as [_ J].
    apply params_eqb_spec in J. exact J.
  - intros p l. split.
    + intros I. pose proof (at_key_In _ _ _ A I) as E.
      assert (P : In p (keys (fold_left add_record L []))) by (apply in_map_iff; exists (p, l); auto).
      split; [rewrite <- E; apply NE, P|]. exists (at_key d p). split; [|rewrite <- E; apply K].
      apply at_key_present. destruct (in_dec (fun a b => match params_eqb a b as x return (params_eqb a b = x -> {a = b} + {a <> b}) with
        | true => fun E => left (proj1 (params_eqb_spec a b) E)
        | false => fun E => right (fun F => Bool.diff_false_true (eq_trans (eq_sym E) (proj2 (params_eqb_spec a b) F))) end eq_refl)
        p (keys d)) as [J|J]; [exact J|]. exfalso. apply NE in P. rewrite K, (at_key_absent d p J) in P. apply P. reflexivity.
    + intros (N & l0 & I & ->). destruct G as [Nd G]. pose proof (at_key_In _ _ _ Nd I) as E.
      assert (P : In p (keys (fold_left add_record L []))).
      { apply NE. rewrite K, E. exact N. }
      pose proof (at_key_present _ _ P) as Q. rewrite K, E in Q. exact Q.
Qed.

Lemma ambiguities_spec vs : forall recorded, ambiguities vs recorded = 0 <->
  NoDup vs /\ forall v, In v vs -> ~ In v recorded.
Proof.
  induction vs as [|v vs IH]; intros recorded; cbn.
  - split; [intros _; split; [constructor|intros v []]|auto].
  - destruct (mem v recorded) eqn:E.
    + apply mem_spec in E. split; [discriminate|]. intros [_ H]. exfalso. apply (H v); auto.
    + apply mem_false in E. rewrite IH. split.
      * intros [N H]. split.
        -- constructor; [|exact N]. intros I. apply (H v I). left. reflexivity.
        -- intros w [<-|I]; [exact E|]. intros J. apply (H w I). right. exact J.
      * intros [N H]. apply NoDup_cons_iff in N as [A N]. split; [exact N|].
        intros w I [<-|J]; [contradiction|]. apply (H w); auto.
Qed.
Lemma keys_vars (d : list (params * list record)) : map (fun pl => vars_of (fst pl)) d = map vars_of (keys d).
Proof. unfold keys. rewrite map_map. reflexivity. Qed.

Lemma filter_records_cases linked d user :
  (filter_records linked d user = Ok (surviving linked user d) /\ NoDup (concat (map vars_of (keys (surviving linked user d))))) \/
  (filter_records linked d user = Raise AmbiguousRegistrationError /\ conflicting (keys (surviving linked user d))).
Proof.
  unfold filter_records. change (filter_subgraph_records _) with (surviving linked user d). rewrite keys_vars.
  destruct (Nat.eqb (ambiguities _ []) 0) eqn:E.
  - left. split; [reflexivity|]. apply Nat.eqb_eq, ambiguities_spec in E as [N _]. exact N.
  - right. split; [reflexivity|]. intros N. apply Nat.eqb_neq in E. apply E, ambiguities_spec. split; [exact N|auto].
Qed.

(** The statements of C50. *)
Lemma filter_characterised linked d user d' : grouped d -> filter_records linked d user = Ok d' ->
  grouped d' /\
  (exists keep, (forall r, keep r = true <-> kept linked user d r) /\
     forall p l, In (p, l) d' <-> l <> [] /\ exists l0, In (p, l0) d /\ l = filter keep l0) /\
  NoDup (concat (map vars_of (map fst d'))).
Proof.
  intros G E. destruct (filter_records_cases linked d user) as [[E' N]|[E' _]]; [|congruence].
  rewrite E in E'. injection E' as ->. destruct (surviving_spec linked user d G) as [A B].
  split; [exact A|]. split; [|exact N]. exists (keepb linked user d). split; [|exact B].
  intros r. apply keepb_spec, G.
Qed.
Lemma filter_raises linked d user e : grouped d -> filter_records linked d user = Raise e ->
  e = AmbiguousRegistrationError /\
  exists ps, conflicting ps /\ NoDup ps /\
    forall p, In p ps <-> exists r, candidate d r /\ kept linked user d r /\ r_params r = p.
Proof.
  intros G E. destruct (filter_records_cases linked d user) as [[E' _]|[E' C]]; rewrite E in E'; [congruence|].
  injection E' as ->. split; [reflexivity|]. exists (keys (surviving linked user d)). split; [exact C|].
  destruct (surviving_spec linked user d G) as [A B]. split; [apply A|]. intros p. unfold keys. rewrite in_map_iff. split.
  - intros ([q l] & <- & I). apply B in I as (N & l0 & I & ->).
    destruct (filter (keepb linked user d) l0) as [|r l] eqn:F; [congruence|].
    assert (J : In r (filter (keepb linked user d) l0)) by (rewrite F; left; reflexivity).
    apply filter_In in J as [J K]. destruct G as [Nd G]. exists r. split; [exists l0; rewrite (G _ _ _ I J); auto|].
    split; [apply keepb_spec; [split|]; assumption|]. apply (G _ _ _ I J).
  - intros (r & (l & I & J) & K & <-). exists (r_params r, filter (keepb linked user d) l). split; [reflexivity|].
    apply B. split; [|eauto]. intros Z. pose proof (proj1 (filter_nil_iff _ _) Z r J) as X.
    apply (keepb_spec linked user d r G) in K. congruence.
Qed.
