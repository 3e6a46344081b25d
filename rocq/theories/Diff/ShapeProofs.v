(** What the reverse pass adds to the graph, which nodes get a gradient, and where NaN goes. *)
From Coq Require Import List Arith Bool Reals Lra Lia.
From Verif.Base Require Import Py.
From Verif.Curv Require Import Model Spec.
From Verif.Diff Require Import Model Spec GraphProofs.
Import ListNotations.
Open Scope list_scope.
Open Scope R_scope.

Section Graphs.
Variable O : ops.
Notation graph := (graph O).
Notation state := (state O).
Notation node_at := (node_at O).

(** Arguments of nodes of [G0]. *)
Definition is_arg (G0 : graph) (a : nat) : Prop := exists i nd, node_at G0 i = Some nd /\ In a (args_of O nd).
Definition is_partial (G0 : graph) (nd : node O) : Prop :=
  exists i p k args, nd = Apply (dp O p k) args /\ node_at G0 i = Some (Apply p args).
(** Graphs that a reverse pass over [G0] may lead to. *)
Inductive grown (G0 : graph) : graph -> Prop :=
| gr_none : grown G0 G0
| gr_add G a b : grown G0 G -> (a < length G)%nat -> (b < length G)%nat -> grown G0 (Add a b :: G)
| gr_partial G nd : grown G0 G -> is_partial G0 nd -> grown G0 (nd :: G)
| gr_mul G a b : grown G0 G -> (a < length G)%nat ->
    is_arg G0 b \/ (exists nd, node_at G b = Some nd /\ is_partial G0 nd) -> grown G0 (Mul a b :: G).

Lemma grown_ext G0 G : grown G0 G -> exists h, G = h ++ G0.
Proof.
  induction 1 as [|G a b _ (h & ->)|G nd _ (h & ->)|G a b _ (h & ->)].
  - exists []. reflexivity.
  - exists (Add a b :: h). reflexivity.
  - exists (nd :: h). reflexivity.
  - exists (Mul a b :: h). reflexivity.
Qed.

Section Pass.
Variable G0 : graph.
Hypothesis W0 : forall i nd, node_at G0 i = Some nd -> forall a, In a (args_of O nd) -> (a < i)%nat.

(** A predicate on nodes of gradients that additions and products inherit, [P], and one that they
    inherit only from all their parts, [C], for the gradients of the nodes in [K]. *)
Variables (P C : graph -> nat -> Prop) (K : nat -> Prop).
Hypothesis P_more : forall nd G c, (c < length G)%nat -> P G c -> P (nd :: G) c.
Hypothesis P_add_l : forall G b c, (b < length G)%nat -> (c < length G)%nat -> P G b -> P (Add b c :: G) (length G).
Hypothesis P_add_r : forall G b c, (b < length G)%nat -> (c < length G)%nat -> P G c -> P (Add b c :: G) (length G).
Hypothesis P_mul : forall G b c, (b < length G)%nat -> P G b -> P (Mul b c :: G) (length G).
Hypothesis C_more : forall nd G c, (c < length G)%nat -> C G c -> C (nd :: G) c.
Hypothesis C_add : forall G b c, C G b -> C G c -> C (Add b c :: G) (length G).
Hypothesis C_mul : forall G b c, C G b -> C G c -> C (Mul b c :: G) (length G).
(** A node with an argument in [K] is in [K]; the other argument of a product then is not, and no
    other operations have such arguments. *)
Hypothesis K_up : forall i nd a, node_at G0 i = Some nd -> In a (args_of O nd) -> K a -> K i.
Hypothesis K_mul_l : forall i a b, node_at G0 i = Some (Mul a b) -> K a -> C G0 b.
Hypothesis K_mul_r : forall i a b, node_at G0 i = Some (Mul a b) -> ~ K b.
Hypothesis K_apply : forall i p args a, node_at G0 i = Some (Apply p args) -> In a args -> ~ K a.

Definition good (st : state) : Prop :=
  grown G0 (fst st) /\ (forall j c, snd st j = Some c -> (c < length (fst st))%nat) /\
  (forall j c, K j -> snd st j = Some c -> C (fst st) c).
Definition covers (st : state) (j : nat) : Prop := exists c, snd st j = Some c /\ P (fst st) c.

Lemma P_ext h G c : (c < length G)%nat -> P G c -> P (h ++ G) c.
Proof.
  intros H. induction h as [|nd h IH]; [trivial|]. intro HP. cbn. apply P_more; [rewrite app_length; lia|apply IH, HP].
Qed.
Lemma C_ext h G c : (c < length G)%nat -> C G c -> C (h ++ G) c.
Proof.
  intros H. induction h as [|nd h IH]; [trivial|]. intro HP. cbn. apply C_more; [rewrite app_length; lia|apply IH, HP].
Qed.
Lemma good_len st : good st -> (length G0 <= length (fst st))%nat.
Proof. intros (G & _). destruct (grown_ext _ _ G) as (h & ->). rewrite app_length. lia. Qed.

(** Steps that keep the state good and lose no gradients. *)
Definition leads (st st' : state) : Prop :=
  good st' /\ (exists h, fst st' = h ++ fst st) /\ forall j, covers st j -> covers st' j.
Lemma leads_trans a b c : leads a b -> leads b c -> leads a c.
Proof.
  intros (_ & (h & E) & F) (G & (h' & E') & F'). split; [exact G|]. split.
  - exists (h' ++ h). rewrite E', E. apply app_assoc.
  - intros j H. apply F', F, H.
Qed.
Lemma leads_refl st : good st -> leads st st.
Proof. intro G. split; [exact G|]. split; [exists []; reflexivity|trivial]. Qed.
Lemma leads_emit st nd : good st -> grown G0 (nd :: fst st) -> leads st (nd :: fst st, snd st).
Proof.
  intros (G1 & G2 & G3) Gr. split; [|split].
  - split; [exact Gr|]. split; cbn.
    + intros j c H. apply G2 in H. lia.
    + intros j c Hk H. apply C_more; [exact (G2 _ _ H)|exact (G3 _ _ Hk H)].
  - exists [nd]. reflexivity.
  - intros j (c & E & H). exists c. split; [exact E|]. cbn. apply P_more; [exact (G2 _ _ E)|exact H].
Qed.
Lemma contribute_leads st a c : good st -> (c < length (fst st))%nat -> (K a -> C (fst st) c) ->
  leads st (contribute O st a c) /\ (P (fst st) c -> covers (contribute O st a c) a).
Proof.
  intros (G1 & G2 & G3) Hc Hk. destruct st as [G ac]. cbn [fst snd] in *. unfold contribute.
  destruct (ac a) as [b|] eqn:Eb.
  - pose proof (G2 _ _ Eb) as Hb. split; [split; [|split]|].
    + split; [apply gr_add; assumption|]. split; cbn.
      * intros j d. unfold upd. destruct (Nat.eqb j a); [intros [= <-]; lia|]. intro H. apply G2 in H. lia.
      * intros j d Kj. unfold upd. destruct (Nat.eqb_spec j a) as [->|N].
        -- intros [= <-]. apply C_add; [exact (G3 _ _ Kj Eb)|exact (Hk Kj)].
        -- intro H. apply C_more; [exact (G2 _ _ H)|exact (G3 _ _ Kj H)].
    + exists [Add b c]. reflexivity.
    + intros j (d & E & H). cbn [fst snd] in *. unfold covers, upd. cbn [fst snd].
      destruct (Nat.eqb_spec j a) as [->|N].
      * exists (length G). split; [reflexivity|]. apply P_add_l; [exact Hb|exact Hc|congruence].
      * exists d. split; [exact E|]. apply P_more; [exact (G2 _ _ E)|exact H].
    + intro H. exists (length G). cbn. unfold upd. rewrite Nat.eqb_refl. split; [reflexivity|].
      apply P_add_r; assumption.
  - split; [split; [|split]|].
    + split; [exact G1|]. split; cbn.
      * intros j d. unfold upd. destruct (Nat.eqb j a); [intros [= <-]; exact Hc|]. apply G2.
      * intros j d Kj. unfold upd. destruct (Nat.eqb_spec j a) as [->|N]; [intros [= <-]; exact (Hk Kj)|apply G3, Kj].
    + exists []. reflexivity.
    + intros j (d & E & H). exists d. cbn [fst snd] in *. unfold upd.
      destruct (Nat.eqb_spec j a) as [->|N]; [congruence|]. split; assumption.
    + intro H. exists c. cbn. unfold upd. rewrite Nat.eqb_refl. split; [reflexivity|exact H].
Qed.

Lemma apply_back_leads i p all gi : node_at G0 i = Some (Apply p all) ->
  forall args k st, good st -> (gi < length (fst st))%nat -> (forall a, In a args -> In a all) ->
    leads st (apply_back O p all gi k args st) /\
    (P (fst st) gi -> forall a, In a args -> covers (apply_back O p all gi k args st) a).
Proof.
  intro Ei. induction args as [|a args IH]; intros k [G ac] Gd Hg Hin.
  - cbn. split; [apply leads_refl, Gd|]. intros _ a [].
  - cbn [apply_back]. cbn [fst] in Hg. pose proof Gd as (Gr & _). cbn [fst] in Gr.
    set (G1 := Apply (dp O p k) all :: G).
    assert (Hp : is_partial G0 (Apply (dp O p k) all)) by (exists i, p, k, all; split; [reflexivity|exact Ei]).
    assert (Gr1 : grown G0 G1) by (apply gr_partial; assumption).
    pose proof (leads_emit (G, ac) (Apply (dp O p k) all) Gd Gr1) as L1. cbn [fst snd] in L1. fold G1 in L1.
    assert (Gr2 : grown G0 (Mul gi (length G) :: G1)).
    { apply gr_mul; [exact Gr1|cbn; lia|]. right. eexists. split; [|exact Hp]. unfold G1. cbn. rewrite Nat.eqb_refl. reflexivity. }
    pose proof (leads_emit (G1, ac) (Mul gi (length G)) (proj1 L1) Gr2) as L2. cbn [fst snd] in L2.
    pose proof (contribute_leads (Mul gi (length G) :: G1, ac) a (length G1) (proj1 L2)) as (L3 & C3).
    { cbn. lia. }
    { intro Ka. destruct (K_apply _ _ _ _ Ei (Hin a (or_introl eq_refl)) Ka). }
    pose proof L3 as (Gd3 & (h3 & E3) & _).
    destruct (IH (S k) _ Gd3) as (L4 & C4).
    { rewrite E3, app_length. cbn. lia. }
    { intros; apply Hin; right; assumption. }
    split.
    + apply (leads_trans _ _ _ L1), (leads_trans _ _ _ L2), (leads_trans _ _ _ L3), L4.
    + intros HP a' [<-|Ha'].
      * apply L4, C3. cbn [fst]. apply P_mul; [unfold G1; cbn; lia|]. apply P_more; [exact Hg|exact HP].
      * apply C4; [|exact Ha']. rewrite E3. cbn [fst] in *. apply P_ext; [cbn; lia|].
        apply P_more; [cbn; lia|]. apply P_more; [exact Hg|exact HP].
Qed.
Lemma propagate_leads i st gi nd : good st -> node_at G0 i = Some nd -> snd st i = Some gi ->
  leads st (propagate O st gi nd) /\ (P (fst st) gi -> forall a, In a (args_of O nd) -> covers (propagate O st gi nd) a).
Proof.
  intros Gd Ei Eg. pose proof Gd as (Gr & G2 & G3). pose proof (G2 _ _ Eg) as Hg.
  pose proof (node_at_lt O _ _ _ Ei) as Hi. pose proof (good_len _ Gd) as Hl.
  destruct nd as [k|r| |p args|a b|a b]; cbn [propagate args_of] in *.
  1-3: split; [apply leads_refl, Gd|intros _ a []].
  - apply (apply_back_leads i); auto.
  - assert (Ka : forall c, c = a \/ c = b -> K c -> C (fst st) gi).
    { intros c Hc Kc. apply (G3 i); [|exact Eg]. apply (K_up i _ c Ei); [cbn; intuition|exact Kc]. }
    destruct (contribute_leads st a gi Gd Hg (Ka a (or_introl eq_refl))) as (L1 & C1).
    pose proof L1 as (Gd1 & (h1 & E1) & _).
    destruct (contribute_leads (contribute O st a gi) b gi Gd1) as (L2 & C2).
    { rewrite E1, app_length. lia. }
    { intro Kb. rewrite E1. apply C_ext; [exact Hg|exact (Ka b (or_intror eq_refl) Kb)]. }
    split; [apply (leads_trans _ _ _ L1 L2)|]. intros HP c [<-|[<-|[]]].
    + apply L2, C1, HP.
    + apply C2. rewrite E1. apply P_ext; assumption.
  - destruct st as [G ac]. cbn [fst snd] in *.
    assert (Ia : is_arg G0 a) by (exists i; eexists; split; [exact Ei|cbn; auto]).
    assert (Ib : is_arg G0 b) by (exists i; eexists; split; [exact Ei|cbn; auto]).
    assert (Hb : (b < i)%nat) by (apply (W0 i _ Ei); cbn; auto).
    assert (Gr1 : grown G0 (Mul gi b :: G)) by (apply gr_mul; [exact Gr|exact Hg|left; exact Ib]).
    pose proof (leads_emit (G, ac) (Mul gi b) Gd Gr1) as L1. cbn [fst snd] in L1.
    destruct (contribute_leads (Mul gi b :: G, ac) a (length G) (proj1 L1)) as (L2 & C2).
    { cbn. lia. }
    { intro Ka. cbn [fst]. apply C_mul.
      - apply (G3 i); [apply (K_up i _ a Ei); [cbn; auto|exact Ka]|exact Eg].
      - destruct (grown_ext _ _ Gr) as (h & ->). apply C_ext; [lia|]. apply (K_mul_l i a b Ei Ka). }
    destruct (contribute O (Mul gi b :: G, ac) a (length G)) as [G1 ac1] eqn:E.
    pose proof L2 as (Gd2 & (h2 & E2) & _). cbn [fst] in E2.
    assert (L : (S (length G) <= length G1)%nat) by (rewrite E2, app_length; cbn; lia).
    assert (Gr2 : grown G0 (Mul gi a :: G1)) by (apply gr_mul; [exact (proj1 Gd2)|lia|left; exact Ia]).
    pose proof (leads_emit (G1, ac1) (Mul gi a) Gd2 Gr2) as L3. cbn [fst snd] in L3.
    destruct (contribute_leads (Mul gi a :: G1, ac1) b (length G1) (proj1 L3)) as (L4 & C4).
    { cbn. lia. }
    { intro Kb. destruct (K_mul_r i a b Ei Kb). }
    split; [apply (leads_trans _ _ _ L1), (leads_trans _ _ _ L2), (leads_trans _ _ _ L3), L4|].
    intros HP c [<-|[<-|[]]].
    + apply L4, L3, C2. cbn [fst]. apply P_mul; assumption.
    + apply C4. cbn [fst]. apply P_mul; [lia|]. rewrite E2. apply P_ext; [cbn; lia|]. apply P_more; assumption.
Qed.

Lemma back_leads stops i st : (i <= length G0)%nat -> good st ->
  leads st (back O stops i st) /\
  forall x, (exists y, (y < i)%nat /\ covers st y /\ uses O stops G0 y x) \/ covers st x ->
    covers (back O stops i st) x.
Proof.
  revert st. induction i as [|i IH]; intros st Hi Gd.
  - cbn. split; [apply leads_refl, Gd|]. intros x [(y & Hy & _)|H]; [lia|exact H].
  - cbn [back].
    match goal with |- context [back O stops i ?s] => set (st1 := s) end.
    assert (L1 : leads st st1 /\ forall y x, covers st y -> y = i -> uses O stops G0 y x ->
              covers st1 x \/ exists a, (a < i)%nat /\ covers st1 a /\ uses O stops G0 a x).
    { unfold st1. destruct (snd st i) as [gi|] eqn:Eg.
      - destruct (mem i stops) eqn:Es.
        + split; [apply leads_refl, Gd|]. intros y x Cv -> U. left.
          inversion U as [|y nd a x' E1 E2 E3 E4]; subst; [exact Cv|].
          destruct E2. apply mem_In, Es.
        + destruct (node_at_some O G0 i) as (nd & End); [lia|].
          destruct Gd as (Gr & Gd'). destruct (grown_ext _ _ Gr) as (h & Eh).
          assert (En : node_at (fst st) i = Some nd) by (rewrite Eh, node_at_ext by lia; exact End).
          rewrite En. destruct (propagate_leads i st gi nd (conj Gr Gd') End Eg) as (A & B).
          split; [exact A|]. intros y x (c & Ec & Pc) -> U. rewrite Eg in Ec. injection Ec as <-.
          inversion U as [|y nd' a x' E1 E2 E3 E4]; subst.
          * left. apply A. exists gi. split; assumption.
          * right. rewrite End in E1. injection E1 as <-. exists a. split; [exact (W0 i nd End a E3)|].
            split; [apply B; assumption|exact E4].
      - split; [apply leads_refl, Gd|]. intros y x (c & Ec & _) ->. congruence. }
    destruct L1 as (L1 & R1). destruct (IH st1) as (L2 & R2); [lia|apply L1|].
    split; [apply (leads_trans _ _ _ L1 L2)|].
    intros x [(y & Hy & Cv & U)|H].
    + destruct (Nat.eq_dec y i) as [Ey|N].
      * destruct (R1 y x Cv Ey U) as [H|(a & Ha & Ca & Ua)]; apply R2; [right; exact H|left; exists a; auto].
      * apply R2. left. exists y. split; [lia|]. split; [apply L1, Cv|exact U].
    + apply R2. right. apply L1, H.
Qed.
Lemma seed_leads l : forall st, good st ->
  (forall y g, In (y, g) l -> (y < length G0)%nat /\ (g < length (fst st))%nat /\ (K y -> C (fst st) g)) ->
  leads st (seed O st l) /\ (forall y g, In (y, g) l -> P (fst st) g -> covers (seed O st l) y).
Proof.
  induction l as [|[y g] l IH]; intros st Gd H; cbn [seed].
  - split; [apply leads_refl, Gd|intros y g []].
  - destruct (H y g (or_introl eq_refl)) as (Hy & Hg & Hk).
    destruct (contribute_leads st y g Gd Hg Hk) as (L1 & C1). pose proof L1 as (Gd1 & (h & E) & _).
    destruct (IH _ Gd1) as (L2 & C2).
    { intros y' g' I. destruct (H y' g' (or_intror I)) as (A & B & D). split; [exact A|].
      split; [rewrite E, app_length; lia|]. intro Ky. rewrite E. apply C_ext; [exact B|exact (D Ky)]. }
    split; [apply (leads_trans _ _ _ L1 L2)|]. intros y' g' [[= <- <-]|I] HP.
    + apply L2, C1, HP.
    + apply (C2 y' g' I). rewrite E. apply P_ext; [|exact HP]. apply (H y' g' (or_intror I)).
Qed.

Lemma pass_shape stops l :
  (forall y g, In (y, g) l -> (y < length G0)%nat /\ (g < length G0)%nat /\ (K y -> C G0 g)) ->
  let st := back O stops (length G0) (seed O (G0, fun _ => None) l) in
  good st /\
  forall y g x, In (y, g) l -> P G0 g -> uses O stops G0 y x -> covers st x.
Proof.
  intros H st.
  assert (Gd : good (G0, fun _ => None)).
  { split; [apply gr_none|]. split; [intros j c [=]|intros j c _ [=]]. }
  destruct (seed_leads l _ Gd H) as (L1 & C1).
  destruct (back_leads stops (length G0) _ (le_n _) (proj1 L1)) as (L2 & C2). fold st in L2, C2.
  split; [apply L2|]. intros y g x I HP U. apply C2. left. exists y.
  split; [apply (H y g I)|]. split; [apply (C1 y g I HP)|exact U].
Qed.
End Pass.

(** ** NaN *)
Fixpoint clean (G : graph) (i : nat) : bool :=
  match G with
  | [] => false
  | nd :: G' =>
      if Nat.eqb i (length G')
      then match nd with Nan => false | _ => forallb (clean G') (args_of O nd) end
      else clean G' i
  end.
Lemma clean_stable : stable O (clean).
Proof. intros nd G i H. cbn. destruct (Nat.eqb_spec i (length G)); [lia|reflexivity]. Qed.
Lemma clean_top nd G : clean (nd :: G) (length G) = match nd with Nan => false | _ => forallb (clean G) (args_of O nd) end.
Proof. cbn. rewrite Nat.eqb_refl. reflexivity. Qed.
Lemma clean_lt G i : clean G i = true -> (i < length G)%nat.
Proof.
  induction G as [|nd G IH]; cbn; [discriminate|]. destruct (Nat.eqb_spec i (length G)) as [->|_]; [lia|].
  intro H. apply IH in H. lia.
Qed.
Lemma all_some_map {A B} (f : A -> option B) (g : A -> B) l : (forall a, In a l -> f a = Some (g a)) ->
  all_some (map f l) = Some (map g l).
Proof.
  induction l as [|a l IH]; intro H; [reflexivity|]. cbn. rewrite H by (left; reflexivity).
  rewrite IH by (intros; apply H; right; assumption). reflexivity.
Qed.
Lemma clean_value env G i : clean G i = true -> value O env G i = Some (at_rest O env G i).
Proof.
  unfold at_rest. revert i. induction G as [|nd G IH]; intro i; [discriminate|].
  cbn [clean value moved]. destruct (Nat.eqb i (length G)); [|apply IH].
  cbn [mem existsb]. change (no_move i) with 0. rewrite Rplus_0_r.
  destruct nd as [k|r| |p args|a b|a b]; cbn [args_of node_value real_node forallb]; try (discriminate || reflexivity).
  - intro H. rewrite forallb_forall in H.
    rewrite (all_some_map _ (moved O env [] no_move no_move G)); [reflexivity|]. intros a Ha. apply IH, H, Ha.
  - intro H. rewrite !andb_true_iff in H. destruct H as (Ha & Hb & _). rewrite (IH a Ha), (IH b Hb). reflexivity.
  - intro H. rewrite !andb_true_iff in H. destruct H as (Ha & Hb & _). rewrite (IH a Ha), (IH b Hb). reflexivity.
Qed.
Lemma clean_ext h G i : (i < length G)%nat -> clean (h ++ G) i = clean G i.
Proof. apply (stable_ext O clean h G i clean_stable). Qed.
Lemma user_clean G : user_graph O G -> forall i, (i < length G)%nat -> clean G i = true.
Proof.
  intros (W & U). assert (U' : forall i, node_at G i <> Some Nan) by exact U. clear U.
  induction G as [|nd G IH]; intros i Hi; [cbn in Hi; lia|]. destruct W as (W1 & W2 & W3).
  assert (U2 : forall i, node_at G i <> Some Nan).
  { intros j E. apply (U' j). cbn. pose proof (node_at_lt O _ _ _ E). destruct (Nat.eqb_spec j (length G)); [lia|exact E]. }
  cbn. destruct (Nat.eqb_spec i (length G)) as [->|N]; [|apply IH; [exact W3|exact U2|cbn in Hi; lia]].
  assert (F : forallb (clean G) (args_of O nd) = true).
  { apply forallb_forall. intros a Ha. apply IH; [exact W3|exact U2|apply W1, Ha]. }
  destruct nd; try exact F. destruct (U' (length G)). cbn. rewrite Nat.eqb_refl. reflexivity.
Qed.
End Graphs.
