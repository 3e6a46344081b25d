(** Bindings found by the search and satisfying assignments; the matcher functions. *)
From Coq Require Import String List Arith Bool Lia.
From Verif.Base Require Import Py.
From Verif.Graph Require Import Model.
From Verif.Match Require Import Model Spec MatchProofs.
Import ListNotations.
Open Scope string_scope.
Open Scope list_scope.

Lemma agrees_refl b : agrees b (lookup b).
Proof. intros n x H. exact H. Qed.

Lemma lookup_app b n m x : lookup (b ++ [(n, x)]) m =
  match lookup b m with Some y => Some y | None => if String.eqb n m then Some x else None end.
Proof.
  induction b as [|[k y] b IH]; simpl; [reflexivity|]. destruct (String.eqb k m); [reflexivity|exact IH].
Qed.

(* ------------------------------------------------------------------------ *)
(** * Assignments only matter on the names of a pattern *)

Definition same_on (l : list string) (s s' : string -> option node) : Prop := forall n, In n l -> s n = s' n.

Lemma same_on_app l m s s' : same_on (l ++ m) s s' -> same_on l s s' /\ same_on m s s'.
Proof. intros H. split; intros n Hn; apply H, in_app_iff; auto. Qed.

Lemma in_turn_impl {A} (S S' : A -> datum -> list node -> Prop) Ps :
  Forall (fun P => forall d u, S P d u -> S' P d u) Ps ->
  forall ds u, in_turn S Ps ds u -> in_turn S' Ps ds u.
Proof.
  intros H. induction H as [|P Ps HP H IH]; intros [|d ds] u; simpl; auto.
  intros (a & b & Ha & Hb & ->). exists a, b. auto.
Qed.

Lemma same_on_concat Ps s s' : same_on (concat (map names Ps)) s s' ->
  Forall (fun P => same_on (names P) s s') Ps.
Proof.
  induction Ps as [|P Ps IH]; simpl; intros H; constructor.
  - apply same_on_app in H. apply H.
  - apply IH. apply same_on_app in H. apply H.
Qed.

Lemma sat_same_on g P : forall s s' d u, same_on (names P) s s' -> sat g s P d u -> sat g s' P d u.
Proof.
  induction P as [n rs|Ps H|Ps H|P i o HP Hi Ho|P HP| |] using pattern_rec'; intros s s' d u E; simpl.
  - intros (x & -> & -> & F & N). exists x. repeat split; auto. simpl in E. destruct (naming n) as [n'|]; [|exact I].
    rewrite <- (E n' (or_introl eq_refl)). exact N.
  - simpl in E. apply same_on_concat in E. induction H as [|P Ps HP H IH]; simpl; [auto|].
    inversion E; subst. intros [K|K]; [left; eauto|right; auto].
  - simpl in E. apply same_on_concat in E. intros (ds & -> & K). exists ds. split; [reflexivity|].
    revert K. apply in_turn_impl. rewrite Forall_forall in *. eauto.
  - simpl in E. apply same_on_app in E as [E1 E]. apply same_on_app in E as [E2 E3].
    intros (a & b & c & -> & K1 & K2 & K3). exists a, b, c. split; [reflexivity|]. split; [eauto|]. split.
    + destruct i as [Ps|]; [|exact K2]. simpl in *. destruct K2 as (ds & Hd & K2). exists ds. split; [exact Hd|].
      apply same_on_concat in E2. revert K2. apply in_turn_impl. rewrite Forall_forall in *. eauto.
    + destruct o as [Ps|]; [|exact K3]. simpl in *. destruct K3 as (ds & Hd & K3). exists ds. split; [exact Hd|].
      apply same_on_concat in E3. revert K3. apply in_turn_impl. rewrite Forall_forall in *. eauto.
  - auto.
  - auto.
  - auto.
Qed.

Lemma concat_nil_all {A} (f : A -> list string) l : concat (map f l) = [] -> Forall (fun x => f x = []) l.
Proof.
  induction l as [|x l IH]; simpl; intros H; constructor; apply app_eq_nil in H as [H1 H2]; auto.
Qed.
Lemma all_of_Forall {A} (S : A -> Prop) l : all_of S l <-> Forall S l.
Proof.
  induction l; simpl; split; intros H; auto; [|inversion H; tauto]. constructor; tauto.
Qed.
Lemma no_names_plain P : names P = [] -> plain_negations P.
Proof.
  induction P as [n rs|Ps H|Ps H|P i o HP Hi Ho|P HP| |] using pattern_rec'; simpl; auto.
  - intros E. apply concat_nil_all in E. apply all_of_Forall. rewrite Forall_forall in *. auto.
  - intros E. apply concat_nil_all in E. apply all_of_Forall. rewrite Forall_forall in *. auto.
  - intros E. apply app_eq_nil in E as [E1 E]. apply app_eq_nil in E as [E2 E3]. split; [auto|]. split.
    + destruct i as [Ps|]; [|exact I]. apply concat_nil_all in E2. apply all_of_Forall. rewrite Forall_forall in *. auto.
    + destruct o as [Ps|]; [|exact I]. apply concat_nil_all in E3. apply all_of_Forall. rewrite Forall_forall in *. auto.
Qed.

(* ------------------------------------------------------------------------ *)
(** * From bindings to assignments and back *)

(** Bindings grow, and only by names of the pattern. *)
Definition grows (l : list string) (b b' : bindings) : Prop :=
  (forall n x, lookup b n = Some x -> lookup b' n = Some x) /\
  (forall n, In n (map fst b') -> In n (map fst b) \/ In n l) /\
  (NoDup (map fst b) -> NoDup (map fst b')).
Lemma grows_refl l b : grows l b b.
Proof. repeat split; auto. Qed.
Lemma grows_trans l1 l2 l b1 b2 b3 : incl l1 l -> incl l2 l -> grows l1 b1 b2 -> grows l2 b2 b3 -> grows l b1 b3.
Proof.
  intros I1 I2 (A & B & C) (A' & B' & C'). split; [|split]; auto.
  intros n Hn. destruct (B' n Hn) as [K|K]; [|right; apply I2, K]. destruct (B n K) as [K'|K']; [auto|right; apply I1, K'].
Qed.
Lemma grows_incl l l' b b' : incl l l' -> grows l b b' -> grows l' b b'.
Proof. intros I (A & B & C). split; [|split]; auto. intros n Hn. destruct (B n Hn); auto. Qed.

Lemma lookup_none_notin b n : lookup b n = None -> ~ In n (map fst b).
Proof.
  induction b as [|[m x] b IH]; simpl; [tauto|]. destruct (String.eqb m n) eqn:E; [discriminate|].
  intros H [K|K]; [subst; rewrite String.eqb_refl in E; discriminate|]. exact (IH H K).
Qed.

Lemma NoDup_snoc {A} (l : list A) x : NoDup l -> ~ In x l -> NoDup (l ++ [x]).
Proof.
  intros N. induction N as [|y l Hy N IH]; simpl; intros Hx.
  - constructor; [simpl; tauto|constructor].
  - constructor; [|apply IH; tauto]. rewrite in_app_iff. simpl. intuition.
Qed.

Lemma choose_grows {A} (S : A -> bindings -> bindings -> datum -> list node -> Prop) (nm : A -> list string) Ps :
  Forall (fun P => forall b b' d u, S P b b' d u -> grows (nm P) b b') Ps ->
  forall b b' ds u, choose S Ps b b' ds u -> grows (concat (map nm Ps)) b b'.
Proof.
  intros H. induction H as [|P Ps HP H IH]; intros b b' [|d ds] u; simpl; try tauto.
  - intros [-> _]. apply grows_refl.
  - intros (b1 & a & c & K1 & K2 & _). eapply grows_trans; [| |exact (HP _ _ _ _ K1)|exact (IH _ _ _ _ K2)];
      intros n Hn; apply in_app_iff; auto.
Qed.

Lemma binds_grows g P : forall b b' d u, binds g P b b' d u -> grows (names P) b b'.
Proof.
  induction P as [n rs|Ps H|Ps H|P i o HP Hi Ho|P HP| |] using pattern_rec'; intros b b' d u; simpl.
  - intros (x & _ & _ & _ & K). destruct (naming n) as [n'|]; [|subst; apply grows_refl].
    destruct K as [[_ ->]|[L ->]]; [apply grows_refl|]. split; [|split].
    + intros m y Hm. rewrite lookup_app, Hm. reflexivity.
    + intros m. rewrite map_app, in_app_iff. simpl. intuition.
    + intros Nd. rewrite map_app. simpl. apply NoDup_snoc; [exact Nd|]. apply lookup_none_notin. exact L.
  - induction H as [|P Ps HP H IH]; simpl; [tauto|]. intros [K|K].
    + eapply grows_incl; [|exact (HP _ _ _ _ K)]. intros m Hm. apply in_app_iff. auto.
    + eapply grows_incl; [|exact (IH K)]. intros m Hm. apply in_app_iff. auto.
  - intros (ds & _ & K). revert K. apply choose_grows. exact H.
  - intros (b1 & b2 & a & v & w & _ & K1 & K2 & K3).
    eapply (grows_trans (names P)); [| |exact (HP _ _ _ _ K1)|].
    + intros m Hm. apply in_app_iff. auto.
    + intros m Hm. apply in_app_iff. right. exact Hm.
    + apply grows_trans with (b2 := b2) (l1 := match i with None => [] | Some Ps => concat (map names Ps) end)
        (l2 := match o with None => [] | Some Ps => concat (map names Ps) end).
      3: { destruct i as [Ps|]; simpl in K2.
           - destruct K2 as (ds & _ & K2). exact (choose_grows _ names Ps Hi _ _ _ _ K2).
           - destruct K2 as [-> _]. apply (grows_refl []). }
      3: { destruct o as [Ps|]; simpl in K3.
           - destruct K3 as (ds & _ & K3). exact (choose_grows _ names Ps Ho _ _ _ _ K3).
           - destruct K3 as [-> _]. apply (grows_refl []). }
      * intros m Hm. apply in_app_iff. auto.
      * intros m Hm. apply in_app_iff. auto.
  - intros (-> & _). apply grows_refl.
  - intros (-> & _). apply grows_refl.
  - intros (-> & _). apply grows_refl.
Qed.

Lemma choose_sat g Ps :
  Forall (fun P => forall b b' d u, binds g P b b' d u -> forall s, agrees b' s -> sat g s P d u) Ps ->
  forall b b' ds u, choose (binds g) Ps b b' ds u -> forall s, agrees b' s -> in_turn (sat g s) Ps ds u.
Proof.
  intros H. induction H as [|P Ps HP H IH]; intros b b' [|d ds] u; simpl; try tauto.
  intros (b1 & a & c & K1 & K2 & ->) s Hs. exists a, c. split; [|split; [|reflexivity]].
  - apply (HP _ _ _ _ K1). intros n x L. apply Hs.
    assert (G : grows (concat (map names Ps)) b1 b').
    { revert K2. apply choose_grows. rewrite Forall_forall. intros Q _. apply binds_grows. }
    apply G. exact L.
  - exact (IH _ _ _ _ K2 s Hs).
Qed.

Lemma sat_choose g s Ps :
  Forall (fun P => forall d u, sat g s P d u -> forall b, agrees b s -> exists b', binds g P b b' d u /\ agrees b' s) Ps ->
  forall ds u, in_turn (sat g s) Ps ds u -> forall b, agrees b s ->
  exists b', choose (binds g) Ps b b' ds u /\ agrees b' s.
Proof.
  intros H. induction H as [|P Ps HP H IH]; intros [|d ds] u; simpl; try tauto.
  - intros -> b Hb. exists b. auto.
  - intros (a & c & K1 & K2 & ->) b Hb. destruct (HP _ _ K1 b Hb) as (b1 & B1 & A1).
    destruct (IH _ _ K2 b1 A1) as (b2 & B2 & A2). exists b2. split; [|exact A2]. exists b1, a, c. auto.
Qed.

Lemma binds_sat_both g P : plain_negations P ->
  (forall b b' d u, binds g P b b' d u -> forall s, agrees b' s -> sat g s P d u) /\
  (forall s d u, sat g s P d u -> forall b, agrees b s -> exists b', binds g P b b' d u /\ agrees b' s).
Proof.
  induction P as [n rs|Ps H|Ps H|P i o HP Hi Ho|P HP| |] using pattern_rec'; simpl; intros Pl.
  - split.
    + intros b b' d u (x & -> & -> & F & K) s Hs. exists x. repeat split; auto.
      destruct (naming n) as [n'|]; [|exact I]. destruct K as [[L ->]|[L ->]]; [apply Hs, L|].
      apply Hs. rewrite lookup_app, L, String.eqb_refl. reflexivity.
    + intros s d u (x & -> & -> & F & K) b Hb. destruct (naming n) as [n'|].
      * destruct (lookup b n') as [y|] eqn:L.
        -- exists b. split; [|exact Hb]. exists x. repeat split; auto. left. split; [|reflexivity].
           rewrite (Hb n' y L) in K. congruence.
        -- exists (b ++ [(n', x)]). split.
           ++ exists x. repeat split; auto.
           ++ intros m z. rewrite lookup_app. destruct (lookup b m) eqn:Lm.
              ** intros Q. apply Hb. congruence.
              ** destruct (String.eqb n' m) eqn:Q; [|discriminate]. apply String.eqb_eq in Q. congruence.
      * exists b. split; [|exact Hb]. exists x. auto.
  - apply all_of_Forall in Pl. induction H as [|P Ps HP H IH]; simpl.
    + split; tauto.
    + inversion Pl as [|? ? P1 P2]; subst. destruct (HP P1) as [A B]. destruct (IH P2) as [C D]. split.
      * intros b b' d u [K|K] s Hs; [left; eauto|right; eauto].
      * intros s d u [K|K] b Hb.
        -- destruct (B _ _ _ K b Hb) as (b' & K1 & K2). eauto.
        -- destruct (D _ _ _ K b Hb) as (b' & K1 & K2). eauto.
  - apply all_of_Forall in Pl. split.
    + intros b b' d u (ds & -> & K) s Hs. exists ds. split; [reflexivity|].
      eapply choose_sat; eauto. rewrite Forall_forall in *. intros P HP. apply (H P HP (Pl P HP)).
    + intros s d u (ds & -> & K) b Hb.
      destruct (sat_choose g s Ps) with (ds := ds) (u := u) (b := b) as (b' & K1 & K2); auto.
      * rewrite Forall_forall in *. intros P HP. intros d u'. apply (H P HP (Pl P HP)).
      * exists b'. split; [|exact K2]. exists ds. auto.
  - destruct Pl as (Pp & Pi & Po). destruct (HP Pp) as [A B]. clear HP.
    assert (GI : match i with None => True | Some Ps => forall b b' ds u, choose (binds g) Ps b b' ds u ->
                   forall n x, lookup b n = Some x -> lookup b' n = Some x end).
    { destruct i as [Ps|]; [|exact I]. intros b b' ds u K.
      assert (G : grows (concat (map names Ps)) b b').
      { revert K. apply choose_grows. rewrite Forall_forall. intros Q _. apply binds_grows. } apply G. }
    assert (GO : match o with None => True | Some Ps => forall b b' ds u, choose (binds g) Ps b b' ds u ->
                   forall n x, lookup b n = Some x -> lookup b' n = Some x end).
    { destruct o as [Ps|]; [|exact I]. intros b b' ds u K.
      assert (G : grows (concat (map names Ps)) b b').
      { revert K. apply choose_grows. rewrite Forall_forall. intros Q _. apply binds_grows. } apply G. }
    split.
    + intros b b' d u (b1 & b2 & a & v & w & -> & K1 & K2 & K3) s Hs. exists a, v, w. split; [reflexivity|].
      assert (A3 : agrees b2 s).
      { intros n x L. apply Hs. destruct o as [Ps|]; simpl in K3.
        - destruct K3 as (ds & _ & K3). eapply GO; eauto.
        - destruct K3 as [-> _]. exact L. }
      assert (A2 : agrees b1 s).
      { intros n x L. apply A3. destruct i as [Ps|]; simpl in K2.
        - destruct K2 as (ds & _ & K2). eapply GI; eauto.
        - destruct K2 as [-> _]. exact L. }
      split; [eauto|]. split.
      * destruct i as [Ps|]; simpl in *; [|apply K2]. destruct K2 as (ds & N & K2). exists ds. split; [exact N|].
        apply all_of_Forall in Pi. eapply choose_sat; eauto. rewrite Forall_forall in *. intros Q HQ. apply (Hi Q HQ (Pi Q HQ)).
      * destruct o as [Ps|]; simpl in *; [|apply K3]. destruct K3 as (ds & N & K3). exists ds. split; [exact N|].
        apply all_of_Forall in Po. eapply choose_sat; eauto. rewrite Forall_forall in *. intros Q HQ. apply (Ho Q HQ (Po Q HQ)).
    + intros s d u (a & v & w & -> & K1 & K2 & K3) b Hb.
      destruct (B _ _ _ K1 b Hb) as (b1 & B1 & A1).
      assert (exists b2, then_constrained (inputs_of g d) (binds g) i b1 b2 v /\ agrees b2 s) as (b2 & B2 & A2).
      { destruct i as [Ps|]; simpl in *; [|exists b1; auto]. destruct K2 as (ds & N & K2).
        apply all_of_Forall in Pi.
        destruct (sat_choose g s Ps) with (ds := ds) (u := v) (b := b1) as (b2 & Q1 & Q2); auto.
        - rewrite Forall_forall in *. intros Q HQ. intros d' u'. apply (Hi Q HQ (Pi Q HQ)).
        - exists b2. split; [|exact Q2]. exists ds. auto. }
      assert (exists b3, then_constrained (outputs_of g d) (binds g) o b2 b3 w /\ agrees b3 s) as (b3 & B3 & A3).
      { destruct o as [Ps|]; simpl in *; [|exists b2; auto]. destruct K3 as (ds & N & K3).
        apply all_of_Forall in Po.
        destruct (sat_choose g s Ps) with (ds := ds) (u := w) (b := b2) as (b3 & Q1 & Q2); auto.
        - rewrite Forall_forall in *. intros Q HQ. intros d' u'. apply (Ho Q HQ (Po Q HQ)).
        - exists b3. split; [|exact Q2]. exists ds. auto. }
      exists b3. split; [|exact A3]. exists b1, b2, a, v, w. auto.
  - destruct (HP (no_names_plain P Pl)) as [A B]. split.
    + intros b b' d u (-> & -> & N) s Hs. split; [reflexivity|]. intros s' u K.
      assert (K' : sat g (lookup b) P d u).
      { eapply sat_same_on; [|exact K]. rewrite Pl. intros n []. }
      destruct (B _ _ _ K' b (agrees_refl b)) as (b1 & K1 & _). exact (N b1 u K1).
    + intros s d u (-> & N) b Hb. exists b. split; [|exact Hb]. split; [reflexivity|]. split; [reflexivity|].
      intros b1 u K. exact (N (lookup b1) u (A _ _ _ _ K _ (agrees_refl b1))).
  - split.
    + intros b b' d u [-> K] s _. exact K.
    + intros s d u K b Hb. exists b. auto.
  - split.
    + intros b b' d u [-> K] s _. exact K.
    + intros s d u K b Hb. exists b. auto.
Qed.

(* ------------------------------------------------------------------------ *)
(** * The matcher functions *)

(** The bindings of the solutions for a node, in the order of the search. *)
Definition found (g : tgraph) (P : pattern) (x : node) : list sol := solve g P (DNode x) [] [].

Lemma truthy_bot b : truthy (bindings_or_true b) = true.
Proof. destruct b; reflexivity. Qed.

Lemma norm_truthy_fst r s : norm r = s -> forall v, fst s = Ok v -> truthy v = true -> fst r = Ok v.
Proof.
  destruct r as [[w|e] t]; simpl; intros <- v; simpl; [|discriminate]. destruct (truthy w) eqn:T; [auto|].
  intros E. injection E as <-. discriminate.
Qed.

Lemma try_never l k s : (forall b c, exists v, k b c = ret v /\ truthy v = true) ->
  try_all l k s = match l with [] => (Ok VFalse, s) | (b, c) :: _ => k b c s end.
Proof.
  intros H. destruct l as [|[b c] l]; simpl; [reflexivity|]. destruct (H b c) as (v & -> & T).
  unfold ret. rewrite T. reflexivity.
Qed.


(** What the search finds for a node, as bindings with the nodes they use. *)
Lemma found_binds g P x b c : wf_graph g ->
  In (b, c) (found g P x) <-> exists used, binds g P [] b (DNode x) used /\ c = set_union [] used.
Proof. intros W. apply (solve_binds g P W (DNode x) I). Qed.

Lemma matcher_first g q P : wf_graph g -> denotes q P ->
  exists f, matcher g q = Ok f /\
    forall x, match found g P x with
              | [] => exists v, f (DNode x) = Ok v /\ truthy v = false
              | (b, _) :: _ => f (DNode x) = Ok (bindings_or_true b)
              end.
Proof.
  intros W D. destruct (compile g q P W D) as (_ & m & E & T). unfold matcher. rewrite E. simpl.
  eexists. split; [reflexivity|]. intros x.
  pose proof (T (DNode x) I [] [] (fun b _ => ret (bindings_or_true b)) []) as Q.
  rewrite try_never in Q by (intros b c; eexists; split; [reflexivity|apply truthy_bot]).
  unfold found. destruct (solve g P (DNode x) [] []) as [|[b c] l].
  - destruct (m (DNode x) [] [] _ []) as [[v|e] s]; simpl in Q; [|discriminate]. exists v. split; [reflexivity|].
    destruct (truthy v) eqn:Tv; [injection Q as -> _; discriminate|reflexivity].
  - eapply norm_truthy_fst; [exact Q|reflexivity|apply truthy_bot].
Qed.

Lemma consumed_first g q P : wf_graph g -> denotes q P ->
  exists f, matcher_with_consumed g q = Ok f /\
    forall x, match found g P x with
              | [] => exists v, f (DNode x) = Ok v /\ truthy v = false
              | (b, c) :: _ => f (DNode x) = Ok (VPair b c)
              end.
Proof.
  intros W D. destruct (compile g q P W D) as (_ & m & E & T). unfold matcher_with_consumed. rewrite E. simpl.
  eexists. split; [reflexivity|]. intros x.
  pose proof (T (DNode x) I [] [] (fun b c => ret (VPair b c)) []) as Q.
  rewrite try_never in Q by (intros b c; eexists; split; reflexivity).
  unfold found. destruct (solve g P (DNode x) [] []) as [|[b c] l].
  - destruct (m (DNode x) [] [] _ []) as [[v|e] s]; simpl in Q; [|discriminate]. exists v. split; [reflexivity|].
    destruct (truthy v) eqn:Tv; [injection Q as -> _; discriminate|reflexivity].
  - eapply norm_truthy_fst; [exact Q|reflexivity|reflexivity].
Qed.

Lemma all_found g q P : wf_graph g -> denotes q P ->
  exists f, all_matcher g q = Ok f /\
    forall x results,
      let r := results ++ map (fun bc => bindings_or_true (fst bc)) (found g P x) in
      f (DNode x) results = (Ok r, r).
Proof.
  intros W D. destruct (compile g q P W D) as (_ & m & E & T). unfold all_matcher. rewrite E. simpl.
  eexists. split; [reflexivity|]. intros x results.
  pose proof (T (DNode x) I [] [] (fun b _ s => (Ok VNone, s ++ [bindings_or_true b])) results) as Q.
  assert (L : forall l s, try_all l (fun b _ s => (Ok VNone, s ++ [bindings_or_true b])) s =
    (Ok VFalse, s ++ map (fun bc => bindings_or_true (fst bc)) l)).
  { induction l as [|[b c] l IH]; intros s; simpl; [rewrite app_nil_r; reflexivity|].
    rewrite IH, <- app_assoc. reflexivity. }
  rewrite L in Q. unfold found.
  destruct (m (DNode x) [] [] _ results) as [[v|e] s]; simpl in Q; [|discriminate].
  injection Q as _ ->. reflexivity.
Qed.

(** Statements of the properties. *)
Lemma matcher_general g q P : wf_graph g -> denotes q P ->
  exists f, matcher g q = Ok f /\
    forall x,
      (exists b used, binds g P [] b (DNode x) used /\ f (DNode x) = Ok (bindings_or_true b)) \/
      ((forall b used, ~ binds g P [] b (DNode x) used) /\
       exists v, f (DNode x) = Ok v /\ truthy v = false).
Proof.
  intros W D. destruct (matcher_first g q P W D) as (f & E & H). exists f. split; [exact E|].
  intros x. specialize (H x). destruct (found g P x) as [|[b c] l] eqn:F.
  - right. split; [|exact H]. intros b used K.
    assert (I : In (b, set_union [] used) (found g P x)) by (apply (found_binds g P x _ _ W); eauto).
    rewrite F in I. exact I.
  - left. assert (I : In (b, c) (found g P x)) by (rewrite F; left; reflexivity).
    apply (found_binds g P x _ _ W) in I as (used & K & _). eauto.
Qed.

Lemma binds_good g P x b used : plain_negations P -> binds g P [] b (DNode x) used ->
  sat g (lookup b) P (DNode x) used /\ NoDup (map fst b) /\ incl (map fst b) (names P).
Proof.
  intros Pl K. destruct (binds_sat_both g P Pl) as [A _]. split; [exact (A _ _ _ _ K _ (agrees_refl b))|].
  destruct (binds_grows g P _ _ _ _ K) as (_ & G & N). split; [apply N; constructor|].
  intros n Hn. destruct (G n Hn) as [[]|Q]. exact Q.
Qed.
Lemma sat_found g P x s used : plain_negations P -> sat g s P (DNode x) used ->
  exists b, binds g P [] b (DNode x) used /\ agrees b s.
Proof. intros Pl K. apply (proj2 (binds_sat_both g P Pl) s (DNode x) used K []). intros n y H. discriminate H. Qed.

Lemma matcher_plain g q P : wf_graph g -> denotes q P -> plain_negations P ->
  exists f, matcher g q = Ok f /\
    forall x,
      (exists b used, sat g (lookup b) P (DNode x) used /\ NoDup (map fst b) /\ incl (map fst b) (names P) /\
         f (DNode x) = Ok (bindings_or_true b)) \/
      ((forall s used, ~ sat g s P (DNode x) used) /\ exists v, f (DNode x) = Ok v /\ truthy v = false).
Proof.
  intros W D Pl. destruct (matcher_general g q P W D) as (f & E & H). exists f. split; [exact E|].
  intros x. destruct (H x) as [(b & used & K & R)|[N R]].
  - left. exists b, used. destruct (binds_good g P x b used Pl K) as (A & B & C). auto.
  - right. split; [|exact R]. intros s used K. destruct (sat_found g P x s used Pl K) as (b & K' & _). exact (N b used K').
Qed.

Lemma consumed_plain g q P : wf_graph g -> denotes q P -> plain_negations P ->
  exists f, matcher_with_consumed g q = Ok f /\
    forall x,
      (exists b c used, sat g (lookup b) P (DNode x) used /\ same_nodes c used /\
         f (DNode x) = Ok (VPair b c)) \/
      ((forall s used, ~ sat g s P (DNode x) used) /\ exists v, f (DNode x) = Ok v /\ truthy v = false).
Proof.
  intros W D Pl. destruct (consumed_first g q P W D) as (f & E & H). exists f. split; [exact E|].
  intros x. specialize (H x). destruct (found g P x) as [|[b c] l] eqn:F.
  - right. split; [|exact H]. intros s used K. destruct (sat_found g P x s used Pl K) as (b & K' & _).
    assert (I : In (b, set_union [] used) (found g P x)) by (apply (found_binds g P x _ _ W); eauto).
    rewrite F in I. exact I.
  - left. assert (I : In (b, c) (found g P x)) by (rewrite F; left; reflexivity).
    apply (found_binds g P x _ _ W) in I as (used & K & ->). exists b, (set_union [] used), used.
    split; [apply (binds_good g P x b used Pl K)|]. split; [apply set_union_nil|exact H].
Qed.

Lemma all_general g q P : wf_graph g -> denotes q P ->
  exists f, all_matcher g q = Ok f /\
    forall x results, exists L,
      f (DNode x) results = (Ok (results ++ map bindings_or_true L), results ++ map bindings_or_true L) /\
      (forall b, In b L <-> exists used, binds g P [] b (DNode x) used).
Proof.
  intros W D. destruct (all_found g q P W D) as (f & E & H). exists f. split; [exact E|].
  intros x results. exists (map fst (found g P x)). split.
  - rewrite map_map. apply H.
  - intros b. rewrite in_map_iff. split.
    + intros ([b' c] & <- & I). apply (found_binds g P x _ _ W) in I as (used & K & _). eauto.
    + intros (used & K). exists (b, set_union [] used). split; [reflexivity|]. apply (found_binds g P x _ _ W). eauto.
Qed.

Lemma all_plain g q P : wf_graph g -> denotes q P -> plain_negations P ->
  exists f, all_matcher g q = Ok f /\
    forall x results, exists L,
      f (DNode x) results = (Ok (results ++ map bindings_or_true L), results ++ map bindings_or_true L) /\
      (forall b, In b L -> exists used, sat g (lookup b) P (DNode x) used) /\
      (forall s used, sat g s P (DNode x) used -> exists b, In b L /\ agrees b s /\ sat g (lookup b) P (DNode x) used).
Proof.
  intros W D Pl. destruct (all_general g q P W D) as (f & E & H). exists f. split; [exact E|].
  intros x results. destruct (H x results) as (L & R & C). exists L. split; [exact R|]. split.
  - intros b I. apply C in I as (used & K). exists used. apply (binds_good g P x b used Pl K).
  - intros s used K. destruct (sat_found g P x s used Pl K) as (b & K' & A). exists b. split; [apply C; eauto|].
    split; [exact A|]. apply (binds_good g P x b used Pl K').
Qed.

Lemma matcher_is_first g q P : wf_graph g -> denotes q P ->
  exists f h, matcher g q = Ok f /\ all_matcher g q = Ok h /\
    forall x, match h (DNode x) [] with
              | (Ok [], _) => exists v, f (DNode x) = Ok v /\ truthy v = false
              | (Ok (v :: _), _) => f (DNode x) = Ok v
              | _ => False
              end.
Proof.
  intros W D. destruct (matcher_first g q P W D) as (f & E & H). destruct (all_found g q P W D) as (h & E' & H').
  exists f, h. split; [exact E|]. split; [exact E'|]. intros x. rewrite (H' x []). simpl. specialize (H x).
  destruct (found g P x) as [|[b c] l]; simpl; exact H.
Qed.

(* ------------------------------------------------------------------------ *)
(** * Internal nodes without a single producer *)

Lemma denotes_pattern q P : denotes q P -> is_pattern (expand_thunks q) = true.
Proof. intros H. induction H; try reflexivity. exact IHdenotes. Qed.

Lemma internal_form g q P ins outs m : denotes q (Internal P ins outs) ->
  make_combinators g (expand_thunks q) = Ok m -> exists ms, m = match_internal g ms.
Proof.
  intros H. remember (Internal P ins outs) as I eqn:EI. revert P ins outs EI m.
  induction H; intros P' ins' outs' EI m Em; try discriminate EI.
  - exact (IHdenotes _ _ _ EI m Em).
  - destruct (pattern_head _ (denotes_pattern _ _ H)) as (h & t & Eq). cbn [expand_thunks map make_combinators] in Em.
    rewrite Eq in Em. cbn [head_is is_internal_node_pattern forallb is_pattern map tag andb String.eqb Ascii.eqb Bool.eqb orb] in Em.
    destruct (make_combinators g (PSeq (h :: t))); [|discriminate Em]. cbn [bind] in Em.
    destruct (mapM (make_combinators g) (map expand_thunks qs)); [|discriminate Em]. injection Em as <-. eauto.
  - destruct (pattern_head _ (denotes_pattern _ _ H)) as (h & t & Eq). cbn [expand_thunks map make_combinators] in Em.
    rewrite Eq in Em. cbn [head_is is_internal_node_pattern forallb is_pattern map tag andb String.eqb Ascii.eqb Bool.eqb orb] in Em.
    destruct (make_combinators g (PSeq (h :: t))); [|discriminate Em]. cbn [bind] in Em.
    destruct (mapM (make_combinators g) (map expand_thunks qs)); [|discriminate Em]. injection Em as <-. eauto.
  - destruct (pattern_head _ (denotes_pattern _ _ H)) as (h & t & Eq). cbn [expand_thunks map make_combinators] in Em.
    rewrite Eq in Em. cbn [head_is is_internal_node_pattern forallb is_pattern map tag andb String.eqb Ascii.eqb Bool.eqb orb] in Em.
    destruct (make_combinators g (PSeq (h :: t))); [|discriminate Em]. cbn [bind] in Em.
    destruct (mapM (make_combinators g) (map expand_thunks qi)); [|discriminate Em]. cbn [bind] in Em.
    destruct (mapM (make_combinators g) (map expand_thunks qo)); [|discriminate Em]. injection Em as <-. eauto.
Qed.

Lemma all_tensors_tensors ts : all_tensors (tensors ts) = Some ts.
Proof. induction ts as [|t ts IH]; [reflexivity|]. cbn. fold (tensors ts). rewrite IH. reflexivity. Qed.

Lemma several_producers g q P ins outs : wf_graph g -> denotes q (Internal P ins outs) ->
  (forall ts ts', Forall2 (sees g) ts ts' ->
     (exists t u, In t ts' /\ In u ts' /\ producer g t <> producer g u) ->
     exists f, matcher g q = Ok f /\ f (DList (tensors ts)) = Ok VFalse).
Proof.
  intros W D ts ts' S (t & u & It & Iu & N).
  destruct (compile g q _ W D) as (_ & m & Em & _).
  destruct (internal_form g q P ins outs m D Em) as (ms & ->).
  unfold matcher. rewrite Em. eexists. split; [reflexivity|].
  unfold match_internal. cbn [expand_inputs]. rewrite all_tensors_tensors.
  destruct (wf_reduce_all g W ts) as (ts2 & F2 & E2). rewrite E2. cbn [bind].
  pose proof (Forall2_sees_det _ _ _ _ S F2) as <-.
  assert (It' : In (producer g t) (nodup Nat.eq_dec (map (fun t => producer g t) ts'))).
  { apply nodup_In. apply in_map_iff. exists t. auto. }
  assert (Iu' : In (producer g u) (nodup Nat.eq_dec (map (fun t => producer g t) ts'))).
  { apply nodup_In. apply in_map_iff. exists u. auto. }
  destruct (nodup Nat.eq_dec (map (fun t => producer g t) ts')) as [|o [|o' l]]; [destruct It'| |reflexivity].
  destruct It' as [K1|[]]. destruct Iu' as [K2|[]]. exfalso. apply N. congruence.
Qed.

Lemma ambiguous_identity g q P ins outs t a b rest : denotes q (Internal P ins outs) ->
  is_leaf g (DNode (Tn t)) = false -> 0 < g_nops (tg_graph g) ->
  is_identity g (producer g t) = true -> op_inputs g (producer g t) = a :: b :: rest ->
  tg_type g (producer g t) <> "IdentityN" \/ a <> b ->
  forall f, matcher g q = Ok f -> f (DNode (Tn t)) = Raise AssertionError.
Proof.
  intros D L N I E A f. unfold matcher. destruct (make_combinators g (expand_thunks q)) as [m|] eqn:Em; [|discriminate].
  destruct (internal_form g q P ins outs m D Em) as (ms & ->). cbn [bind]. intros [= <-].
  unfold match_internal. cbn [expand_inputs]. rewrite L. cbn [negb]. unfold reduce_identity_ops.
  destruct (g_nops (tg_graph g)) as [|n]; [lia|]. cbn [reduce_loop]. rewrite I, E.
  destruct (String.eqb (tg_type g (producer g t)) "IdentityN") eqn:T; [|reflexivity].
  destruct (Nat.eqb a b) eqn:B; [|reflexivity].
  apply String.eqb_eq in T. apply Nat.eqb_eq in B. destruct A; contradiction.
Qed.
