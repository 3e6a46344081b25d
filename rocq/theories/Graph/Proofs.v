From Coq Require Import List Arith Relations Lia Bool.
From Verif.Base Require Import Py ListFacts.
From Verif.Graph Require Import Model Spec.
Import ListNotations.

Lemma node_eqb_eq a b : node_eqb a b = true <-> a = b.
Proof.
  destruct a, b; cbn; try (split; discriminate); rewrite Nat.eqb_eq; split; congruence.
Qed.
Lemma node_eq_dec (a b : node) : {a = b} + {a <> b}.
Proof. decide equality; apply Nat.eq_dec. Defined.
Lemma in_members_In x m : in_members x m = true <-> In x m.
Proof.
  unfold in_members. rewrite existsb_exists. split.
  - intros (y & H & E). apply node_eqb_eq in E. subst; auto.
  - intros H. exists x. split; auto. apply node_eqb_eq; auto.
Qed.

Definition succs (g : graph) (x : node) : list node :=
  match group_of g x with Some l => l | None => [] end.
Lemma succs_depends g x y : In y (succs g x) <-> depends g x y.
Proof.
  destruct x; cbn; split; intros H.
  - destruct H as [<-|[]]. constructor.
  - inversion H; subst. auto.
  - apply in_map_iff in H as (t & <- & H). constructor; auto.
  - inversion H; subst. apply in_map; auto.
  - destruct H.
  - inversion H.
Qed.

(** universe of expandable nodes *)
Definition universe (g : graph) : list node :=
  map Tn (seq 0 (g_ntensors g)) ++ map Opn (seq 0 (g_nops g)).
Definition missing (g : graph) (m : list node) : nat :=
  length (filter (fun x => negb (in_members x m)) (universe g)).

Lemma universe_length g : length (universe g) = g_ntensors g + g_nops g.
Proof. unfold universe. rewrite app_length, !map_length, !seq_length. reflexivity. Qed.

Lemma universe_NoDup g : NoDup (universe g).
Proof.
  unfold universe.
  assert (H : forall (l1 l2 : list node), NoDup l1 -> NoDup l2 ->
            (forall x, In x l1 -> ~ In x l2) -> NoDup (l1 ++ l2)).
  { induction l1 as [|a l1 IH]; intros l2 H1 H2 H; cbn; auto.
    inversion H1; subst. constructor.
    - rewrite in_app_iff. intros [?|?]; [auto|]. apply (H a); cbn; auto.
    - apply IH; auto. intros x Hx. apply H; cbn; auto. }
  apply H.
  - apply FinFun.Injective_map_NoDup; [intros ? ? E; congruence|apply seq_NoDup].
  - apply FinFun.Injective_map_NoDup; [intros ? ? E; congruence|apply seq_NoDup].
  - intros x Hx Hy. apply in_map_iff in Hx as (? & <- & _).
    apply in_map_iff in Hy as (? & ? & _). discriminate.
Qed.

Lemma in_universe g x : In x (universe g) <-> in_graph g x /\ group_of g x <> None.
Proof.
  unfold universe. rewrite in_app_iff, !in_map_iff. destruct x; cbn; split.
  - intros [(y & E & H)|(y & E & _)]; [|discriminate]. injection E as ->.
    apply in_seq in H. split; [lia|discriminate].
  - intros [H _]. left. exists t. split; auto. apply in_seq; lia.
  - intros [(y & E & _)|(y & E & H)]; [discriminate|]. injection E as ->.
    apply in_seq in H. split; [lia|discriminate].
  - intros [H _]. right. exists o. split; auto. apply in_seq; lia.
  - intros [(y & E & _)|(y & E & _)]; discriminate.
  - intros [_ H]. congruence.
Qed.

Lemma filter_drop_one (l : list node) (p q : node -> bool) x :
  NoDup l -> In x l -> p x = true -> q x = false ->
  (forall y, y <> x -> q y = p y) ->
  length (filter p l) = S (length (filter q l)).
Proof.
  intros Hn Hi Hp Hq Heq. induction l as [|a l IH]; [destruct Hi|].
  inversion Hn as [|? ? Ha Hl]; subst. cbn. destruct Hi as [->|Hi].
  - rewrite Hp, Hq. cbn. f_equal. f_equal.
    clear IH Hn Hl. induction l as [|b l IHl]; [reflexivity|]. cbn.
    rewrite <- (Heq b) by (intros ->; apply Ha; cbn; auto).
    rewrite IHl; [reflexivity|]. intros H; apply Ha; cbn; auto.
  - rewrite (Heq a) by (intros ->; contradiction).
    destruct (p a); cbn; rewrite IH; auto.
Qed.

Lemma missing_cons g x m :
  in_graph g x -> group_of g x <> None -> in_members x m = false ->
  missing g m = S (missing g (x :: m)).
Proof.
  intros H1 H2 H3. unfold missing.
  apply (filter_drop_one _ _ _ x).
  - apply universe_NoDup.
  - apply in_universe; auto.
  - rewrite H3; reflexivity.
  - cbn. assert (E : node_eqb x x = true) by (apply node_eqb_eq; auto). rewrite E. reflexivity.
  - intros y Hy. cbn. assert (E : node_eqb y x = false).
    { destruct (node_eqb y x) eqn:E; auto. apply node_eqb_eq in E. contradiction. }
    rewrite E. reflexivity.
Qed.

Lemma missing_other g x m : group_of g x = None -> missing g (x :: m) = missing g m.
Proof.
  intros H. unfold missing. f_equal. apply filter_ext_in. intros y Hy. cbn.
  assert (E : node_eqb y x = false).
  { destruct (node_eqb y x) eqn:E; auto. apply node_eqb_eq in E. subst.
    apply in_universe in Hy as [_ Hy]. contradiction. }
  rewrite E. reflexivity.
Qed.

Lemma visit_measure g nodes m st m' st' :
  (forall x, In x nodes -> in_graph g x) ->
  visit g nodes m st = (m', st') ->
  missing g m' + length st' = missing g m + length st.
Proof.
  revert m st; induction nodes as [|x nodes IH]; intros m st Hg H; cbn in H.
  - injection H as <- <-; auto.
  - destruct (in_members x m) eqn:E.
    + apply IH in H; auto. intros y Hy; apply Hg; cbn; auto.
    + apply IH in H; [|intros y Hy; apply Hg; cbn; auto]. rewrite H.
      destruct (group_of g x) as [gr|] eqn:G.
      * rewrite (missing_cons g x m); [cbn; lia| | |auto]; [apply Hg; cbn; auto|congruence].
      * rewrite missing_other; auto.
Qed.

Definition pending (nodes : list node) (st : list (list node)) (y : node) : Prop :=
  In y nodes \/ exists gr, In gr st /\ In y gr.

(** The loop invariant, relative to the set [P] of ancestors. *)
Record inv (g : graph) (P : node -> Prop) (nodes : list node) (m : list node)
    (st : list (list node)) : Prop := {
  inv_sound : forall x, In x m -> P x;
  inv_pend : forall x, pending nodes st x -> P x;
  inv_closed : forall x y, In x m -> depends g x y -> In y m \/ pending nodes st y }.

Lemma visit_inv g (P : node -> Prop) nodes m st m' st' :
  (forall x y, P x -> depends g x y -> P y) ->
  inv g P nodes m st -> visit g nodes m st = (m', st') ->
  inv g P [] m' st' /\ (forall x, In x m \/ In x nodes -> In x m').
Proof.
  intros HP. revert m st; induction nodes as [|x nodes IH]; intros m st Hi H; cbn in H.
  - injection H as <- <-. split; auto. intros x [?|[]]; auto.
  - destruct (in_members x m) eqn:E.
    + apply in_members_In in E.
      apply IH in H as [H1 H2].
      * split; auto. intros y [Hy|[<-|Hy]]; auto.
      * destruct Hi as [A B C]. split; auto.
        -- intros y Hy. apply B. destruct Hy as [Hy|Hy]; [left; cbn; auto|right; auto].
        -- intros a b Ha Hd. destruct (C a b Ha Hd) as [?|[[<-|?]|?]]; auto;
             right; [left|right]; auto.
    + apply IH in H as [H1 H2].
      * split; auto. intros y [Hy|[<-|Hy]]; auto; apply H2; left; cbn; auto.
      * destruct Hi as [A B C].
        assert (Px : P x) by (apply B; left; cbn; auto).
        split.
        -- intros y [<-|Hy]; auto.
        -- intros y [Hy|(gr & Hgr & Hy)].
           ++ apply B; left; cbn; auto.
           ++ destruct (group_of g x) as [gx|] eqn:G.
              ** destruct Hgr as [<-|Hgr]; [|apply B; right; exists gr; auto].
                 apply (HP x); auto. apply succs_depends. unfold succs. rewrite G; auto.
              ** apply B; right; exists gr; auto.
        -- intros a b [<-|Ha] Hd.
           ++ right. apply succs_depends in Hd. unfold succs in Hd.
              destruct (group_of g x) as [gx|] eqn:G; [|destruct Hd].
              right. exists gx. cbn; auto.
           ++ destruct (C a b Ha Hd) as [?|[[<-|?]|(gr & Hgr & Hb)]].
              ** left; cbn; auto.
              ** left; cbn; auto.
              ** right; left; auto.
              ** right; right. exists gr. split; auto.
                 destruct (group_of g x); cbn; auto.
Qed.

Lemma visit_stack g nodes m st m' st' :
  visit g nodes m st = (m', st') -> forall gr, In gr st -> In gr st'.
Proof.
  revert m st. induction nodes as [|x nodes IH]; intros m st H gr Hgr; cbn in H.
  - injection H as <- <-; auto.
  - destruct (in_members x m); [eapply IH; eauto|].
    eapply IH; eauto. destruct (group_of g x); cbn; auto.
Qed.

Lemma iter_add_spec g (P : node -> Prop) :
  (forall x, P x -> in_graph g x) ->
  (forall x y, P x -> depends g x y -> P y) ->
  forall fuel st m,
    inv g P [] m st -> missing g m + length st <= fuel ->
    exists m', iter_add fuel g st m = Some m' /\ inv g P [] m' [] /\
               forall x, In x m \/ pending [] st x -> In x m'.
Proof.
  intros HG HP. induction fuel as [|fuel IH]; intros st m Hi Hm.
  - destruct st; [|cbn in Hm; lia]. exists m. cbn. split; auto. split; auto.
    intros x [?|[[]|(gr & [] & _)]]; auto.
  - destruct st as [|nodes st]; cbn.
    { exists m. split; auto. split; auto. intros x [?|[[]|(gr & [] & _)]]; auto. }
    destruct (visit g nodes m st) as [m1 st1] eqn:V.
    assert (Hi' : inv g P nodes m st).
    { destruct Hi as [A B C]. split; auto.
      - intros x [Hx|(gr & Hgr & Hx)]; apply B; right; [exists nodes|exists gr]; cbn; auto.
      - intros x y Hx Hd. destruct (C x y Hx Hd) as [?|[[]|(gr & [<-|Hgr] & Hy)]]; auto;
          right; [left|right; exists gr]; auto. }
    pose proof (visit_measure g nodes m st m1 st1
                  (fun x Hx => HG x (inv_pend _ _ _ _ _ Hi' x (or_introl Hx))) V) as M.
    pose proof (visit_stack _ _ _ _ _ _ V) as V3.
    apply (visit_inv g P) in V as [V1 V2]; auto.
    destruct (IH st1 m1 V1) as (m' & E & I' & K); [cbn in Hm; lia|].
    exists m'. split; auto. split; auto.
    intros x [Hx|[[]|(gr & [<-|Hgr] & Hx)]].
    + apply K; left; auto.
    + apply K; left; auto.
    + apply K. right. right. exists gr. split; auto.
Qed.

Lemma filter_len_le {A} (f : A -> bool) l : length (filter f l) <= length l.
Proof. induction l as [|a l IH]; cbn; [lia|]. destruct (f a); cbn; lia. Qed.

Lemma ancestor_in_graph g outs :
  closed_graph g -> (forall x, In x outs -> in_graph g x) ->
  forall x, ancestor g outs x -> in_graph g x.
Proof.
  intros (C1 & C2 & _) Ho x (y & Hy & R).
  apply clos_rt_rt1n in R. specialize (Ho y Hy). clear Hy.
  induction R as [|a b c D R IH]; auto. apply IH.
  inversion D; subst; cbn in *; auto. eapply C2; eauto.
Qed.

Lemma subgraph_members g outs :
  closed_graph g -> outs <> [] -> (forall x, In x outs -> in_graph g x) ->
  exists m, subgraph g outs = Ok m /\
    forall x, is_member m x = true <-> ancestor g outs x.
Proof.
  intros Hc Hne Ho. unfold subgraph, is_member.
  set (P := ancestor g outs).
  assert (HP : forall x y, P x -> depends g x y -> P y).
  { intros x y (z & Hz & R) D. exists z. split; auto.
    eapply rt_trans; [exact R|]. apply rt_step; auto. }
  assert (HI : inv g P [] [] [outs]).
  { split.
    - intros x [].
    - intros x [[]|(gr & [<-|[]] & Hx)]. exists x. split; auto. apply rt_refl.
    - intros x y []. }
  destruct (iter_add_spec g P (ancestor_in_graph g outs Hc Ho) HP (loop_bound g) _ _ HI)
    as (m & E & I & K).
  { unfold loop_bound, missing. cbn [length].
    pose proof (filter_len_le (fun x => negb (in_members x [])) (universe g)) as L.
    rewrite universe_length in L. lia. }
  exists m. rewrite E. split; [destruct outs; congruence|].
  intros x. rewrite in_members_In. split.
  - apply (inv_sound _ _ _ _ _ I).
  - intros (y & Hy & R).
    assert (Hm : In y m) by (apply K; right; right; exists outs; cbn; auto).
    apply clos_rt_rt1n in R. clear Hy. induction R as [|a b c D R IH]; auto.
    apply IH. destruct (inv_closed _ _ _ _ _ I a b Hm D) as [?|[[]|(gr & [] & _)]]; auto.
Qed.

Lemma subgraph_empty g : subgraph g [] = Raise IndexError.
Proof.
  unfold subgraph, loop_bound. cbn [iter_add visit].
  destruct (g_ntensors g + g_nops g); reflexivity.
Qed.

Lemma filter_list_spec m l :
  filter_list m l = filter (is_member m) l.
Proof. reflexivity. Qed.

(* ----------------------------------------------------------------------- *)

Lemma consumers_In g t o : In o (consumers g t) <-> o < g_nops g /\ In t (g_inputs g o).
Proof.
  unfold consumers. rewrite filter_In, in_seq, existsb_exists. split.
  - intros (H & t' & Ht & E). apply Nat.eqb_eq in E. subst. split; [lia|auto].
  - intros (H & Ht). split; [lia|]. exists t. split; auto. apply Nat.eqb_refl.
Qed.

(** chain of relays: list of tensors, newest last visited first *)
Fixpoint chain (g : graph) (l : list nat) : Prop :=
  match l with
  | a :: ((b :: _) as l') => relayed g a b /\ chain g l'
  | _ => True
  end.

Definition outs_of (f : nat) (g : graph) (ts : list nat) : res (list nat) :=
  (fix over_outputs (ts : list nat) : res (list nat) :=
     match ts with
     | [] => Ok []
     | t' :: ts' => do a <- add_consumers f g t';
                    do b <- over_outputs ts'; Ok (a ++ b)
     end) ts.
Definition cons_of (f : nat) (g : graph) (os : list nat) : res (list nat) :=
  (fix over_consumers (os : list nat) : res (list nat) :=
     match os with
     | [] => Ok []
     | o :: os' =>
         do here <- (if g_relay g o then outs_of f g (g_outputs g o) else Ok [o]);
         do rest <- over_consumers os';
         Ok (here ++ rest)
     end) os.
Lemma add_consumers_S f g t : add_consumers (S f) g t = cons_of f g (consumers g t).
Proof. reflexivity. Qed.
Lemma outs_of_cons f g t ts :
  outs_of f g (t :: ts) = (do a <- add_consumers f g t; do b <- outs_of f g ts; Ok (a ++ b)).
Proof. reflexivity. Qed.
Lemma cons_of_cons f g o os :
  cons_of f g (o :: os) =
  (do here <- (if g_relay g o then outs_of f g (g_outputs g o) else Ok [o]);
   do rest <- cons_of f g os; Ok (here ++ rest)).
Proof. reflexivity. Qed.

(** running out of fuel exhibits a chain of relays *)
Lemma outs_of_raise f g ts e :
  outs_of f g ts = Raise e -> exists t, In t ts /\ add_consumers f g t = Raise e.
Proof.
  induction ts as [|t ts IH]; [discriminate|]. rewrite outs_of_cons.
  destruct (add_consumers f g t) as [a|e'] eqn:E; cbn.
  - destruct (outs_of f g ts); cbn; [discriminate|]. intros H; injection H as ->.
    destruct IH as (t' & H & H'); auto. exists t'. cbn; auto.
  - intros H; injection H as ->. exists t. cbn; auto.
Qed.
Lemma cons_of_raise f g os e :
  cons_of f g os = Raise e ->
  exists o t, In o os /\ g_relay g o = true /\ In t (g_outputs g o) /\
              add_consumers f g t = Raise e.
Proof.
  induction os as [|o os IH]; [discriminate|]. rewrite cons_of_cons.
  destruct (g_relay g o) eqn:R.
  - destruct (outs_of f g (g_outputs g o)) as [a|e'] eqn:E; cbn.
    + destruct (cons_of f g os); cbn; [discriminate|]. intros H; injection H as ->.
      destruct IH as (o' & t' & H & H'); auto. exists o', t'. cbn; intuition.
    + intros H; injection H as ->. apply outs_of_raise in E as (t & Ht & E).
      exists o, t. cbn; auto.
  - cbn. destruct (cons_of f g os); cbn; [discriminate|]. intros H; injection H as ->.
    destruct IH as (o' & t' & H & H'); auto. exists o', t'. cbn; intuition.
Qed.
Lemma add_consumers_raise f g t e :
  add_consumers f g t = Raise e ->
  exists l, length l = f /\ chain g (t :: l).
Proof.
  revert t; induction f as [|f IH]; intros t H.
  - exists []. cbn; auto.
  - rewrite add_consumers_S in H. apply cons_of_raise in H as (o & t' & Ho & R & Ht & E).
    apply IH in E as (l & L & C). exists (t' :: l). split; [cbn; lia|].
    split; auto. apply consumers_In in Ho as [H1 H2]. exists o. auto.
Qed.

Lemma chain_trans g t l t' : chain g (t :: l) -> In t' l -> clos_trans _ (relayed g) t t'.
Proof.
  revert t; induction l as [|a l IH]; intros t C Hi; [destruct Hi|].
  destruct C as [R C]. destruct Hi as [->|Hi]; [apply t_step; auto|].
  eapply t_trans; [apply t_step; exact R|]. apply IH; auto.
Qed.
Lemma chain_NoDup g l : relays_acyclic g -> chain g l -> NoDup l.
Proof.
  intros Ha. induction l as [|t l IH]; intros C; constructor.
  - intros Hi. apply (Ha t). eapply chain_trans; eauto.
  - apply IH. destruct l; [exact I|apply C].
Qed.
Lemma chain_bound g l :
  closed_graph g -> chain g l -> (forall t, In t (firstn 1 l) -> t < g_ntensors g) ->
  forall t, In t l -> t < g_ntensors g.
Proof.
  intros (C1 & C2 & C3). induction l as [|a l IH]; intros C H t Hi; [destruct Hi|].
  destruct Hi as [<-|Hi]; [apply H; cbn; auto|].
  destruct l as [|b l]; [destruct Hi|]. destruct C as [(o & Ho & _ & _ & Hb) C].
  apply IH; auto. intros t' [<-|[]]. eapply C3; eauto.
Qed.

Lemma add_consumers_ok g t :
  closed_graph g -> relays_acyclic g -> t < g_ntensors g ->
  exists cs, add_consumers (g_ntensors g) g t = Ok cs.
Proof.
  intros Hc Ha Ht. destruct (add_consumers (g_ntensors g) g t) as [cs|e] eqn:E; eauto.
  exfalso. apply add_consumers_raise in E as (l & L & C).
  pose proof (chain_NoDup g _ Ha C) as N.
  assert (B : incl (t :: l) (seq 0 (g_ntensors g))).
  { intros x Hx. apply in_seq. split; [lia|]. cbn.
    eapply (chain_bound g (t :: l)); eauto. cbn. intros ? [<-|[]]; auto. }
  apply NoDup_incl_length in B; auto. rewrite seq_length in B. cbn in B. lia.
Qed.

(** content *)
Lemma outs_of_ok f g ts cs :
  outs_of f g ts = Ok cs ->
  forall o, In o cs <-> exists t a, In t ts /\ add_consumers f g t = Ok a /\ In o a.
Proof.
  revert cs; induction ts as [|t ts IH]; intros cs H o.
  - injection H as <-. split; [intros []|intros (? & ? & [] & _)].
  - rewrite outs_of_cons in H. destruct (add_consumers f g t) as [a|] eqn:E; [|discriminate].
    cbn in H. destruct (outs_of f g ts) as [b|] eqn:E'; [|discriminate].
    cbn in H. injection H as <-. rewrite in_app_iff, (IH b eq_refl o). split.
    + intros [Ho|(t' & a' & H1 & H2 & H3)].
      * exists t, a. cbn; auto.
      * exists t', a'. cbn; auto.
    + intros (t' & a' & [<-|H1] & H2 & H3).
      * left. congruence.
      * right. exists t', a'. auto.
Qed.
Lemma cons_of_ok f g os cs :
  cons_of f g os = Ok cs ->
  forall o, In o cs <->
    (In o os /\ g_relay g o = false) \/
    (exists r t a, In r os /\ g_relay g r = true /\ In t (g_outputs g r) /\
                   add_consumers f g t = Ok a /\ In o a).
Proof.
  revert cs; induction os as [|r os IH]; intros cs H o.
  - injection H as <-. split; [intros []|intros [[[] _]|(? & ? & ? & [] & _)]].
  - rewrite cons_of_cons in H.
    destruct (g_relay g r) eqn:R.
    + destruct (outs_of f g (g_outputs g r)) as [a|] eqn:E; [|discriminate]. cbn in H.
      destruct (cons_of f g os) as [b|] eqn:E'; [|discriminate]. cbn in H. injection H as <-.
      rewrite in_app_iff, (IH b eq_refl o), (outs_of_ok _ _ _ _ E o). split.
      * intros [(t & a' & H1 & H2 & H3)|[[H1 H2]|(r' & t & a' & H1 & H2 & H3)]].
        -- right. exists r, t, a'. cbn; auto.
        -- left. cbn; auto.
        -- right. exists r', t, a'. cbn; auto.
      * intros [[[<-|H1] H2]|(r' & t & a' & [<-|H1] & H2 & H3 & H4 & H5)].
        -- congruence.
        -- right; left; auto.
        -- left. exists t, a'. auto.
        -- right; right. exists r', t, a'. auto.
    + cbn in H. destruct (cons_of f g os) as [b|] eqn:E'; [|discriminate]. cbn in H.
      injection H as <-. cbn [In]. rewrite (IH b eq_refl o). split.
      * intros [<-|[[H1 H2]|(r' & t & a' & H1 & H2 & H3)]].
        -- left; cbn; auto.
        -- left; cbn; auto.
        -- right. exists r', t, a'. cbn; auto.
      * intros [[[<-|H1] H2]|(r' & t & a' & [<-|H1] & H2 & H3 & H4 & H5)].
        -- auto.
        -- right; left; auto.
        -- congruence.
        -- right; right. exists r', t, a'. auto.
Qed.

Lemma add_consumers_sound f g t cs :
  add_consumers f g t = Ok cs -> forall o, In o cs -> real_consumer g t o.
Proof.
  revert t cs; induction f as [|f IH]; intros t cs H o Ho; [discriminate|].
  rewrite add_consumers_S in H. apply (cons_of_ok _ _ _ _ H) in Ho.
  destruct Ho as [[H1 H2]|(r & t' & a & H1 & H2 & H3 & H4 & H5)].
  - apply consumers_In in H1 as [H1 H1']. split; auto. split; auto.
    exists t. split; auto. apply rt_refl.
  - destruct (IH _ _ H4 _ H5) as (A & B & t'' & C & D). split; auto. split; auto.
    exists t''. split; auto. eapply rt_trans; [apply rt_step|exact C].
    apply consumers_In in H1 as [H1 H1']. exists r. auto.
Qed.

Lemma add_consumers_complete g t t' :
  clos_refl_trans_1n _ (relayed g) t t' ->
  forall f cs o, add_consumers f g t = Ok cs -> o < g_nops g -> g_relay g o = false ->
    In t' (g_inputs g o) -> In o cs.
Proof.
  induction 1 as [t|t t1 t' (r & R1 & R2 & R3 & R4) _ IH]; intros f cs o H Ho Hr Hi;
    (destruct f as [|f]; [discriminate|]); rewrite add_consumers_S in H;
    apply (cons_of_ok _ _ _ _ H).
  - left. split; auto. apply consumers_In; auto.
  - destruct (add_consumers f g t1) as [a|e] eqn:E.
    + right. exists r, t1, a. split; [apply consumers_In; auto|].
      repeat (split; auto). eapply IH; eauto.
    + exfalso.
      assert (G : forall os, In r os -> forall c, cons_of f g os <> Ok c).
      { clear - R3 R4 E. induction os as [|x os IH]; intros Hin c; [destruct Hin|].
        rewrite cons_of_cons. destruct Hin as [->|Hin].
        - rewrite R3. assert (G : forall ts, In t1 ts -> forall c, outs_of f g ts <> Ok c).
          { clear - E. induction ts as [|x ts IH]; intros Hin c; [destruct Hin|].
            rewrite outs_of_cons. destruct Hin as [->|Hin]; [rewrite E; discriminate|].
            destruct (add_consumers f g x); cbn; [|discriminate].
            destruct (outs_of f g ts) eqn:E'; cbn; [|discriminate].
            exfalso. eapply IH; eauto. }
          destruct (outs_of f g (g_outputs g r)) eqn:E'; cbn; [|discriminate].
          exfalso. eapply G; eauto.
        - destruct (if g_relay g x then _ else _); cbn; [|discriminate].
          destruct (cons_of f g os) eqn:E'; cbn; [|discriminate].
          exfalso. eapply IH; eauto. }
      eapply G; [apply consumers_In|]; eauto.
Qed.

Lemma collect_spec g ts :
  closed_graph g -> relays_acyclic g -> (forall t, In t ts -> t < g_ntensors g) ->
  exists cs, collect g ts = Ok cs /\
    forall o, In o cs <-> exists t, In t ts /\ real_consumer g t o.
Proof.
  intros Hc Ha. induction ts as [|t ts IH]; intros Ht.
  - exists []. split; auto. intros o; split; [intros []|intros (? & [] & _)].
  - destruct (add_consumers_ok g t Hc Ha) as (a & E); [apply Ht; cbn; auto|].
    destruct IH as (b & E' & H); [intros; apply Ht; cbn; auto|].
    exists (a ++ b). cbn. rewrite E. cbn. rewrite E'. split; auto.
    intros o. rewrite in_app_iff, H. split.
    + intros [Ho|(t' & H1 & H2)].
      * exists t. split; auto. eapply add_consumers_sound; eauto.
      * exists t'. auto.
    + intros (t' & [<-|H1] & H2).
      * left. destruct H2 as (A & B & t2 & C & D).
        eapply add_consumers_complete; eauto. apply clos_rt_rt1n; auto.
      * right. exists t'. auto.
Qed.

Lemma variable_uses_spec g m v ts :
  closed_graph g -> relays_acyclic g -> start_tensors v = Ok ts ->
  (forall t, In t ts -> t < g_ntensors g) ->
  exists ops, NoDup ops /\
    (forall o, In o ops <->
       is_member m (Opn o) = true /\ exists t, In t ts /\ real_consumer g t o) /\
    variable_uses g m v = Ok (length ops).
Proof.
  intros Hc Ha Hs Ht. unfold variable_uses. rewrite Hs. cbn.
  destruct (collect_spec g ts Hc Ha Ht) as (cs & E & H). rewrite E. cbn.
  exists (filter (fun o => is_member m (Opn o)) (nodup Nat.eq_dec cs)).
  split; [apply NoDup_filter, NoDup_nodup|]. split; auto.
  intros o. rewrite filter_In, nodup_In, H. tauto.
Qed.

Lemma variable_uses_rejects g m : variable_uses g m NotAVariable = Raise ValueError.
Proof. reflexivity. Qed.
