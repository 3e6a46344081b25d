(** Creating variables: what a sequence of requests leaves behind. *)
From Coq Require Import String Ascii List Arith Bool Lia QArith Permutation.
From Verif.Base Require Import Py.
From Verif.Names Require Import Model Spec StringProofs ScopeProofs.
Import ListNotations.
Open Scope string_scope.
Open Scope nat_scope.
Open Scope list_scope.

Local Arguments String.append : simpl nomatch.
Local Arguments slash : simpl never.

Definition ask (auto : bool) (v : var) (st : list var) : res (list var) :=
  get_variable auto (v_name v) (v_shape v) (v_init v) st.

(* ------------------------------------------------------------------------ *)
(** * Loops as requests *)

Lemma mapm_in {A B} (f : A -> res B) l bs : mapm f l = Ok bs ->
  forall a, In a l -> exists b, f a = Ok b /\ In b bs.
Proof.
  revert bs; induction l as [|x l IH]; cbn; intros bs H a I; [tauto|].
  destruct (f x) as [b|] eqn:E; [|discriminate]. cbn in H.
  destruct (mapm f l) as [bs'|] eqn:E'; [|discriminate]. cbn in H. injection H as <-.
  destruct I as [<-|I]; [exists b; simpl; auto|].
  destruct (IH _ eq_refl a I) as (b' & ? & ?). exists b'. simpl; auto.
Qed.
Lemma mapm_total {A B} (f : A -> res B) l : (forall a, In a l -> exists b, f a = Ok b) ->
  exists bs, mapm f l = Ok bs.
Proof.
  induction l as [|x l IH]; intros H; [exists []; reflexivity|].
  destruct (H x) as (b & E); [simpl; auto|].
  destruct IH as (bs & E'); [intros; apply H; simpl; auto|].
  exists (b :: bs). cbn. rewrite E. cbn. rewrite E'. reflexivity.
Qed.
Lemma mapm_forall2 {A B} (f : A -> res B) l bs :
  mapm f l = Ok bs <-> Forall2 (fun a b => f a = Ok b) l bs.
Proof.
  revert bs; induction l as [|x l IH]; intros bs; cbn.
  - split; [intros [= <-]; constructor|]. intros H; inversion H; auto.
  - split.
    + destruct (f x) as [b|] eqn:E; [|discriminate]. cbn.
      destruct (mapm f l) as [bs'|]; [|discriminate]. cbn. intros [= <-].
      constructor; auto. apply IH; auto.
    + intros H; inversion H as [|? ? ? bs' H1 H2]; subst. rewrite H1. cbn.
      apply IH in H2. rewrite H2. reflexivity.
Qed.

Lemma foldm_app {A S} (f : A -> S -> res S) a b s :
  foldm f (a ++ b) s = (do s1 <- foldm f a s ; foldm f b s1).
Proof.
  revert s; induction a as [|x a IH]; intros s; cbn; auto.
  destruct (f x s); cbn; auto.
Qed.

Lemma foldm_requests {A B S} (f : A -> S -> res S) (g : B -> S -> res S) (h : A -> res (list B)) l :
  (forall a s s', In a l -> (f a s = Ok s' <-> exists rq, h a = Ok rq /\ foldm g rq s = Ok s')) ->
  forall s s', foldm f l s = Ok s' <->
    exists rqs, mapm h l = Ok rqs /\ foldm g (concat rqs) s = Ok s'.
Proof.
  induction l as [|a l IH]; intros H s s'; cbn.
  - split; [intros E; exists []; auto|]. intros (rqs & [= <-] & E). exact E.
  - split.
    + destruct (f a s) as [s1|] eqn:E; [|discriminate]. cbn. intros F.
      apply H in E; [|simpl; auto]. destruct E as (rq & E & G).
      apply IH in F; [|intros; apply H; simpl; auto]. destruct F as (rqs & F & K).
      exists (rq :: rqs). rewrite E. cbn. rewrite F. cbn. split; auto.
      rewrite foldm_app, G. exact K.
    + intros (rqs & E & F).
      destruct (h a) as [rq|] eqn:Ea; [|discriminate]. cbn in E.
      destruct (mapm h l) as [rqs'|] eqn:El; [|discriminate]. cbn in E. injection E as <-.
      cbn [concat] in F. rewrite foldm_app in F.
      destruct (foldm g rq s) as [s1|] eqn:G; [|discriminate]. cbn in F.
      assert (Q : f a s = Ok s1) by (apply H; [simpl; auto|]; exists rq; auto).
      rewrite Q. cbn. apply IH; [intros; apply H; simpl; auto|]. exists rqs'. auto.
Qed.

Lemma Ok_inj {A} (a b : A) : Ok a = Ok b -> a = b.
Proof. congruence. Qed.

Lemma bind_ok {A B} (r : res A) (f : A -> res B) b :
  bind r f = Ok b <-> exists a, r = Ok a /\ f a = Ok b.
Proof.
  destruct r as [a|e]; cbn; split.
  - intros H; exists a; auto.
  - intros (a' & [= <-] & H); auto.
  - discriminate.
  - intros (a & H & _); discriminate.
Qed.

(* ------------------------------------------------------------------------ *)
(** * What requests leave behind *)

Lemma nats_eqb_eq a b : nats_eqb a b = true <-> a = b.
Proof.
  revert b; induction a as [|x a IH]; intros [|y b]; cbn; try (split; congruence).
  rewrite andb_true_iff, Nat.eqb_eq, IH. split; [intros [-> ->]; auto|intros [= -> ->]; auto].
Qed.

Lemma lookup_none n st : lookup n st = None <-> ~ In n (names st).
Proof.
  unfold lookup, names. split.
  - intros H I. apply in_map_iff in I as (v & <- & I).
    eapply find_none in H; eauto. cbn in H. rewrite String.eqb_refl in H. discriminate.
  - intros N. destruct (find _ st) as [v|] eqn:E; auto. exfalso. apply find_some in E as [I E].
    apply String.eqb_eq in E. apply N, in_map_iff. eauto.
Qed.
Lemma lookup_some n st v : lookup n st = Some v -> In v st /\ v_name v = n.
Proof. intros H. apply find_some in H as [I E]. apply String.eqb_eq in E. auto. Qed.

Lemma names_app a b : names (a ++ b) = names a ++ names b.
Proof. apply map_app. Qed.

Lemma ask_fresh v st st' : ask false v st = Ok st' <-> ~ In (v_name v) (names st) /\ st' = st ++ [v].
Proof.
  unfold ask, get_variable. destruct (lookup (v_name v) st) as [u|] eqn:E.
  - split; [discriminate|]. intros [N _]. apply lookup_none in N. congruence.
  - apply lookup_none in E. destruct v as [n s i]; cbn in *. split; [intros [= <-]|intros [_ ->]]; auto.
Qed.

Lemma asks_fresh rq st st' :
  foldm (ask false) rq st = Ok st' <->
  st' = st ++ rq /\ NoDup (names rq) /\ forall v, In v rq -> ~ In (v_name v) (names st).
Proof.
  revert st; induction rq as [|v rq IH]; intros st; cbn [foldm].
  - split; [intros [= <-]|intros (-> & _)]; rewrite ?app_nil_r; auto.
    split; [auto|]. split; [constructor|]. intros v [].
  - rewrite bind_ok. split.
    + intros (st1 & E & F). apply ask_fresh in E as [N ->]. apply IH in F as (-> & D & G).
      rewrite <- app_assoc. split; [reflexivity|]. split.
      * cbn. constructor; auto. intros I. apply in_map_iff in I as (u & E & I).
        apply (G u I). rewrite names_app, E. apply in_or_app. right. simpl; auto.
      * intros u [<-|I]; auto. intros J. apply (G u I). rewrite names_app. apply in_or_app; auto.
    + intros (-> & D & G). inversion D as [|? ? N D']; subst.
      exists (st ++ [v]). split; [apply ask_fresh; split; auto; apply G; simpl; auto|].
      apply IH. rewrite <- app_assoc. split; [reflexivity|]. split; auto.
      intros u I. rewrite names_app. intros J. apply in_app_or in J as [J|J].
      * apply (G u); simpl; auto.
      * cbn in J. destruct J as [J|[]]. apply N. rewrite J. apply in_map; auto.
Qed.

(** Variables of the same name have the same shape. *)
Definition consistent (l : list var) : Prop :=
  forall u v, In u l -> In v l -> v_name u = v_name v -> v_shape u = v_shape v.

Lemma nodup_consistent st : NoDup (names st) -> consistent st.
Proof.
  unfold names. induction st as [|x st IH]; intros D u v; [intros []|].
  inversion D as [|? ? N D']; subst. intros [<-|I] [<-|J] E; auto.
  - exfalso. apply N. rewrite E. apply in_map; auto.
  - exfalso. apply N. rewrite <- E. apply in_map; auto.
  - apply IH; auto.
Qed.

Lemma ask_auto v st st' : NoDup (names st) -> ask true v st = Ok st' ->
  (exists new, st' = st ++ new /\ incl new [v]) /\ NoDup (names st') /\
  In (saved v) (map saved st').
Proof.
  intros D. unfold ask, get_variable. destruct (lookup (v_name v) st) as [u|] eqn:E.
  - apply lookup_some in E as [I E]. cbn [andb].
    destruct (nats_eqb (v_shape u) (v_shape v)) eqn:S; [|discriminate]. intros [= <-].
    apply nats_eqb_eq in S. repeat split; auto.
    + exists []. rewrite app_nil_r. split; auto. intros x [].
    + apply in_map_iff. exists u. split; auto. unfold saved. congruence.
  - apply lookup_none in E. intros [= <-]. repeat split.
    + eexists; split; [reflexivity|]. destruct v; intros x X; exact X.
    + rewrite names_app. cbn.
      apply (Permutation_NoDup (l := v_name v :: names st)); [apply Permutation_cons_append|].
      constructor; auto.
    + rewrite map_app. apply in_or_app. right. cbn. destruct v; auto.
Qed.

Lemma asks_auto rq : forall st st', NoDup (names st) -> foldm (ask true) rq st = Ok st' ->
  (exists new, st' = st ++ new /\ incl new rq) /\ NoDup (names st') /\
  (forall v, In v rq -> In (saved v) (map saved st')).
Proof.
  induction rq as [|v rq IH]; intros st st' D; cbn [foldm].
  - intros [= <-]. repeat split; auto; [|intros v []]. exists []. rewrite app_nil_r. split; auto. intros x [].
  - rewrite bind_ok. intros (st1 & E & F). apply ask_auto in E as ((n1 & -> & I1) & D1 & S1); auto.
    apply IH in F as ((n2 & -> & I2) & D2 & S2); auto. repeat split; auto.
    + exists (n1 ++ n2). rewrite app_assoc. split; auto.
      intros x X. apply in_app_or in X as [X|X]; [apply I1 in X; destruct X as [X|[]]; simpl; auto|].
      right. apply I2; auto.
    + intros u [<-|U]; auto. rewrite map_app. apply in_or_app; auto.
Qed.

Lemma asks_consistent rq : forall st st', NoDup (names st) -> foldm (ask true) rq st = Ok st' ->
  consistent (st ++ rq).
Proof.
  intros st st' D H. apply asks_auto in H as ((new & -> & _) & D' & S); auto.
  assert (K : forall u, In u (st ++ rq) -> exists u', In u' (st ++ new) /\ saved u' = saved u).
  { intros u I. apply in_app_or in I as [I|I].
    - exists u. split; auto. apply in_or_app; auto.
    - specialize (S u I). apply in_map_iff in S as (u' & E & I'). eauto. }
  intros u v I J E. destruct (K u I) as (u' & I' & Eu), (K v J) as (v' & J' & Ev).
  unfold saved in *. injection Eu as N1 S1. injection Ev as N2 S2. rewrite <- S1, <- S2.
  apply (nodup_consistent (st ++ new)); auto. congruence.
Qed.

Lemma consistent_asks rq : forall st, NoDup (names st) -> consistent (st ++ rq) ->
  exists st', foldm (ask true) rq st = Ok st'.
Proof.
  induction rq as [|v rq IH]; intros st D C; cbn [foldm]; [eauto|].
  assert (exists st1, ask true v st = Ok st1) as (st1 & E).
  { unfold ask, get_variable. destruct (lookup (v_name v) st) as [u|] eqn:E; [|eauto].
    apply lookup_some in E as [I E].
    assert (S : v_shape u = v_shape v)
      by (apply C; auto; apply in_or_app; simpl; auto).
    apply nats_eqb_eq in S. rewrite S. cbn. eauto. }
  rewrite E. cbn. apply ask_auto in E as ((new & -> & I) & D1 & _); auto.
  apply IH; auto. intros u x U X. apply C.
  - rewrite <- app_assoc in U. apply in_app_or in U as [U|U]; [apply in_or_app; auto|].
    apply in_app_or in U as [U|U]; apply in_or_app; right; [left|simpl; auto].
    apply I in U. destruct U as [U|[]]; auto.
  - rewrite <- app_assoc in X. apply in_app_or in X as [X|X]; [apply in_or_app; auto|].
    apply in_app_or in X as [X|X]; apply in_or_app; right; [left|simpl; auto].
    apply I in X. destruct X as [X|[]]; auto.
Qed.

(** The same requests in another order. *)
Lemma asks_auto_perm rq rq' st st1 : NoDup (names st) -> Permutation rq rq' ->
  foldm (ask true) rq st = Ok st1 ->
  exists st2, foldm (ask true) rq' st = Ok st2 /\ Permutation (map saved st1) (map saved st2).
Proof.
  intros D P H. pose proof (asks_consistent _ _ _ D H) as C.
  assert (C' : consistent (st ++ rq')).
  { intros u v U V. apply C; [clear V|clear U].
    - apply in_app_or in U as [U|U]; apply in_or_app; auto. right.
      eapply Permutation_in; [apply Permutation_sym|]; eauto.
    - apply in_app_or in V as [V|V]; apply in_or_app; auto. right.
      eapply Permutation_in; [apply Permutation_sym|]; eauto. }
  destruct (consistent_asks rq' st D C') as (st2 & H2). exists st2. split; auto.
  apply asks_auto in H as ((n1 & -> & I1) & D1 & S1); auto.
  apply asks_auto in H2 as ((n2 & -> & I2) & D2 & S2); auto.
  assert (ND : forall l, NoDup (names l) -> NoDup (map saved l)).
  { intros l Dl. apply (NoDup_map_inv fst). rewrite map_map. exact Dl. }
  apply NoDup_Permutation; auto. intros x. rewrite !map_app, !in_app_iff.
  split; intros [X|X]; auto.
  - apply in_map_iff in X as (v & <- & X). apply I1 in X. rewrite <- in_app_iff, <- map_app.
    apply S2. eapply Permutation_in; eauto.
  - apply in_map_iff in X as (v & <- & X). apply I2 in X. rewrite <- in_app_iff, <- map_app.
    apply S1. eapply Permutation_in; [apply Permutation_sym|]; eauto.
Qed.

Lemma asks_fresh_perm rq rq' st sta st1 :
  Permutation rq rq' -> Permutation (map saved st) (map saved sta) ->
  foldm (ask false) rq st = Ok st1 ->
  exists st2, foldm (ask false) rq' sta = Ok st2 /\ Permutation (map saved st1) (map saved st2).
Proof.
  intros P PS H. apply asks_fresh in H as (-> & D & F).
  assert (PN : Permutation (names st) (names sta)).
  { apply (Permutation_map fst) in PS. rewrite !map_map in PS. exact PS. }
  exists (sta ++ rq'). split.
  - apply asks_fresh. split; [reflexivity|]. split.
    + eapply Permutation_NoDup; [|exact D]. apply Permutation_map; auto.
    + intros v I J. apply (F v).
      * eapply Permutation_in; [apply Permutation_sym|]; eauto.
      * eapply Permutation_in; [apply Permutation_sym|]; eauto.
  - rewrite !map_app. apply Permutation_app; auto. apply Permutation_map; auto.
Qed.

(* ------------------------------------------------------------------------ *)
(** * The requests of the statistics *)

Definition average_reqs (scope : string) (s : list nat) (i : init) : list var :=
  [mkVar (slash scope "var") s i; mkVar (slash scope "total_weight") [] Zeros].

Definition cov_reqs (k : consts) (w : world) (scope : string) (f : factor) : res (list var) :=
  do vs <- var_scope w f ;
  let here := slash scope vs in
  do s <- cov_shape w f ;
  Ok (average_reqs (slash here "cov") s (cov_initializer k f) ++
      match f with
      | ConvInputSUA _ filter _ =>
          if k_zero_mean k then [] else
          match in_channels filter with
          | Ok c => average_reqs (slash here "mu") [c; 1] Zeros | Raise _ => [] end
      | FCMulti _ _ _ true => average_reqs (slash here "cov_dt1") s Zeros
      | _ => []
      end).

Lemma moving_average_asks scope s i st :
  moving_average scope s i st = foldm (ask true) (average_reqs scope s i) st.
Proof.
  unfold moving_average, average_reqs. cbn [foldm]. unfold ask; cbn [v_name v_shape v_init].
  destruct (get_variable true (slash scope "var") s i st); cbn; auto.
  destruct (get_variable true (slash scope "total_weight") [] Zeros a); auto.
Qed.

Lemma instantiate_cov_asks k w scope f st st' :
  instantiate_cov k w scope f st = Ok st' <->
  exists rq, cov_reqs k w scope f = Ok rq /\ foldm (ask true) rq st = Ok st'.
Proof.
  unfold instantiate_cov, cov_reqs.
  destruct (var_scope w f) as [vs|] eqn:V; cbn [bind];
    [|split; [discriminate|intros (? & ? & _); discriminate]].
  destruct (cov_shape w f) as [s|] eqn:S; cbn [bind];
    [|split; [discriminate|intros (? & ? & _); discriminate]].
  rewrite moving_average_asks.
  set (A := average_reqs (slash (slash scope vs) "cov") s (cov_initializer k f)).
  assert (K : forall E, (exists rq, Ok (A ++ E) = Ok rq /\ foldm (ask true) rq st = Ok st') <->
                        foldm (ask true) (A ++ E) st = Ok st').
  { intros E; split; [intros (rq & [= <-] & H); auto|intros H; eauto]. }
  rewrite K. rewrite foldm_app. destruct (foldm (ask true) A st) as [st1|]; cbn [bind]; [|tauto].
  destruct f; cbn [foldm]; try tauto.
  - destruct (k_zero_mean k); [tauto|]. cbn [cov_shape] in S.
    destruct (in_channels filter) as [c|]; [|discriminate]. cbn [bind].
    rewrite moving_average_asks. tauto.
  - destruct dt1; [|tauto]. rewrite moving_average_asks. tauto.
Qed.

Lemma make_cov_foldm k w scope fs st :
  make_cov_vars k w scope fs st = foldm (instantiate_cov k w scope) fs st.
Proof.
  revert st; induction fs as [|f fs IH]; intros st; cbn; auto.
  destruct (instantiate_cov k w scope f st); cbn; auto.
Qed.

Lemma make_cov_asks k w scope fs st st' :
  make_cov_vars k w scope fs st = Ok st' <->
  exists rqs, mapm (cov_reqs k w scope) fs = Ok rqs /\ foldm (ask true) (concat rqs) st = Ok st'.
Proof.
  rewrite make_cov_foldm. apply foldm_requests. intros. apply instantiate_cov_asks.
Qed.

Lemma slash_inj scope a b x y : free_of "/" a -> free_of "/" b ->
  slash (slash scope a) x = slash (slash scope b) y -> a = b /\ x = y.
Proof.
  intros A B H. unfold slash in H. rewrite !sapp_assoc in H. apply sapp_inj in H.
  cbn [String.append] in H. injection H as H. apply split_left in H; auto.
Qed.

(** All names a factor asks for lie in its scope. *)
Lemma cov_reqs_scope k w scope f rq vs : var_scope w f = Ok vs -> cov_reqs k w scope f = Ok rq ->
  forall v, In v rq -> exists x, v_name v = slash (slash scope vs) x.
Proof.
  unfold cov_reqs. intros -> H. cbn [bind] in H.
  destruct (cov_shape w f) as [s|]; [|discriminate]. cbn [bind] in H. apply Ok_inj in H. subst rq.
  assert (A : forall n s i v, In v (average_reqs (slash (slash scope vs) n) s i) ->
     exists x, v_name v = slash (slash scope vs) x).
  { intros n s' i v [<-|[<-|[]]]; cbn [v_name];
      [exists (slash n "var")|exists (slash n "total_weight")];
      unfold slash; rewrite !sapp_assoc; reflexivity. }
  intros v I. apply in_app_or in I as [I|I]; [eapply A; eauto|].
  destruct f; cbn in I; try tauto.
  - destruct (k_zero_mean k); [destruct I|]. destruct (in_channels filter); [|destruct I]. eapply A; eauto.
  - destruct dt1; [|destruct I]. eapply A; eauto.
Qed.

Lemma NoDup_app' {A} (a b : list A) : NoDup a -> NoDup b -> (forall x, In x a -> ~ In x b) -> NoDup (a ++ b).
Proof.
  induction a as [|x a IH]; cbn; intros D E F; auto. inversion D; subst. constructor.
  - intros I. apply in_app_or in I as [I|I]; [auto|]. apply (F x); auto.
  - apply IH; auto.
Qed.

(** Within one factor all names differ. *)
Lemma cov_reqs_nodup k w scope f rq : cov_reqs k w scope f = Ok rq -> NoDup (names rq).
Proof.
  unfold cov_reqs. destruct (var_scope w f) as [vs|]; [|discriminate].
  destruct (cov_shape w f) as [s|]; [|discriminate]. cbn [bind]. intros H. apply Ok_inj in H. subst rq.
  assert (A : forall n s i, names (average_reqs (slash (slash scope vs) n) s i) =
     [slash (slash scope vs) (n ++ "/var"); slash (slash scope vs) (n ++ "/total_weight")]%string).
  { intros. cbn. unfold slash. rewrite !sapp_assoc. reflexivity. }
  assert (N : forall x y, x <> y -> slash (slash scope vs) x <> slash (slash scope vs) y).
  { intros x y D E. unfold slash in E. rewrite !sapp_assoc in E.
    do 4 apply sapp_inj in E. auto. }
  assert (D1 : forall n s i, NoDup (names (average_reqs (slash (slash scope vs) n) s i))).
  { intros. rewrite A. constructor; [|constructor; [intros []|constructor]].
    intros [E|[]]. symmetry in E. revert E. apply N. intros E. apply sapp_inj in E. discriminate. }
  assert (D2 : forall n m s i s' i', (forall x y, x <> ""%string -> (n ++ "/" ++ x <> m ++ "/" ++ y)%string) ->
    NoDup (names (average_reqs (slash (slash scope vs) n) s i
                  ++ average_reqs (slash (slash scope vs) m) s' i'))).
  { intros n m s0 i s' i' D. rewrite names_app. apply NoDup_app'; auto. rewrite !A.
    intros x [<-|[<-|[]]] [E|[E|[]]]; symmetry in E; revert E; apply N.
    - apply (D "var" "var"); discriminate.
    - apply (D "var" "total_weight"); discriminate.
    - apply (D "total_weight" "var"); discriminate.
    - apply (D "total_weight" "total_weight"); discriminate. }
  destruct f; try (rewrite app_nil_r; apply D1).
  - destruct (k_zero_mean k); [rewrite app_nil_r; apply D1|].
    destruct (in_channels filter); [|rewrite app_nil_r; apply D1]. apply D2. intros x y _. discriminate.
  - destruct dt1; [|rewrite app_nil_r; apply D1]. apply D2. intros x y _. discriminate.
Qed.
