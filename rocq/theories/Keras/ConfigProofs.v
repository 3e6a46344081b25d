(** Proofs about the configuration of the Keras optimizer. *)
From Coq Require Import String Ascii.
From Coq Require Import QArith List Arith Bool Lia.
From Verif.Base Require Import Py.
From Verif.Keras Require Import Config.
Import ListNotations.
Local Open Scope string_scope.
Local Arguments String.eqb : simpl never.
Local Arguments String.prefix : simpl never.

Lemma eqb_sym s t : String.eqb s t = String.eqb t s.
Proof. destruct (String.eqb_spec s t), (String.eqb_spec t s); congruence. Qed.

Lemma get_filter_ne d k x : get (filter (fun p => negb (String.eqb (fst p) k)) d) x = if String.eqb k x then None else get d x.
Proof.
  induction d as [|[k' v] d IH]; cbn [filter get fst].
  - destruct (String.eqb k x); reflexivity.
  - destruct (String.eqb_spec k' k) as [->|N]; cbn [negb].
    + rewrite IH. destruct (String.eqb_spec k x); reflexivity.
    + cbn [get]. rewrite IH. destruct (String.eqb_spec k' x) as [<-|]; [|reflexivity].
      destruct (String.eqb_spec k k'); [congruence|reflexivity].
Qed.
Lemma get_set d k v x : get (set d k v) x = if String.eqb k x then Some v else get d x.
Proof.
  unfold set. cbn [get]. destruct (String.eqb_spec k x) as [->|N]; [reflexivity|].
  rewrite get_filter_ne. destruct (String.eqb_spec k x); [congruence|reflexivity].
Qed.
Lemma get_update d e x : get (update d e) x = match get e x with Some v => Some v | None => get d x end.
Proof.
  induction e as [|[k v] e IH]; [reflexivity|]. unfold update in *. cbn [fold_right fst snd]. rewrite get_set, IH.
  cbn [get]. destruct (String.eqb k x); reflexivity.
Qed.
Lemma get_remove d k x : get (remove d k) x = if String.eqb k x then None else get d x.
Proof. apply get_filter_ne. Qed.
Lemma get_filter (P : string -> bool) d x : get (filter (fun p => P (fst p)) d) x = if P x then get d x else None.
Proof.
  induction d as [|[k v] d IH]; cbn [filter get fst].
  - destruct (P x); reflexivity.
  - destruct (P k) eqn:E; cbn [get]; destruct (String.eqb_spec k x) as [->|N]; rewrite ?IH, ?E; try reflexivity.
Qed.
Lemma has_get d k : has d k = true <-> exists v, get d k = Some v.
Proof. unfold has. destruct (get d k); split; [eauto|reflexivity|discriminate|intros (v & [=])]. Qed.
Lemma get_in d k v : get d k = Some v -> In (k, v) d.
Proof.
  induction d as [|[k' v'] d IH]; [discriminate|]. cbn. destruct (String.eqb_spec k' k) as [->|]; [intros [= ->]; auto|auto].
Qed.
Lemma get_some_key d k : (exists v, get d k = Some v) <-> In k (map fst d).
Proof.
  split.
  - intros (v & E). apply get_in in E. apply in_map_iff. exists (k, v). auto.
  - induction d as [|[k' v'] d IH]; [intros []|]. cbn. destruct (String.eqb_spec k' k) as [->|N]; [eauto|].
    intros [E|E]; [contradiction|auto].
Qed.
Lemma get_map_fst (f : string -> pyval) l x :
  get (map (fun h => (h, f h)) l) x = if existsb (String.eqb x) l then Some (f x) else None.
Proof.
  induction l as [|h l IH]; [reflexivity|]. cbn [map get existsb]. rewrite (eqb_sym x h).
  destruct (String.eqb_spec h x) as [->|]; [reflexivity|exact IH].
Qed.

(** The keys that the configuration for the adaptive modes may set. *)
Definition adaptive_keys : list string :=
  ["adapt_damping"; "momentum"; "momentum_type"; "use_passed_loss"; "update_damping_immediately";
   "invert_every"; "damping_adaptation_interval"].

Lemma configure_plain kw a mt : truthy a = Ok false ->
  lower_of (get_default kw "momentum_type" (VStr "regular")) = Ok mt -> String.prefix "qmodel" mt = false ->
  truthy (get_default kw "adapt_damping" (VBool false)) = Ok false -> configure kw a = Ok kw.
Proof. intros A M P D. unfold configure. rewrite A. cbn [bind]. rewrite M. cbn [bind]. rewrite P. cbn [bind]. rewrite D. reflexivity. Qed.

(** The dictionary after the first step. *)
Definition step1 (kw : dict) (a : bool) : dict :=
  if a then update kw [("adapt_damping", VBool true); ("momentum", VNone); ("momentum_type", VStr "qmodel")] else kw.

Lemma configure_ok kw ad kw' : configure kw ad = Ok kw' ->
  exists a d, truthy ad = Ok a /\ truthy (get_default (step1 kw a) "adapt_damping" (VBool false)) = Ok d /\
   kw' = if d : bool
         then let kw2 := update (step1 kw a) (update [("use_passed_loss", VBool true); ("update_damping_immediately", VBool true)] (step1 kw a)) in
              if has kw2 "invert_every" && has kw2 "damping_adaptation_interval" then kw2
              else set (set kw2 "invert_every" (VNum 5)) "damping_adaptation_interval" (VNum 5)
         else step1 kw a.
Proof.
  unfold configure. destruct (truthy ad) as [a|]; [|discriminate]. cbn [bind]. fold (step1 kw a).
  destruct (lower_of _) as [mt|]; [|discriminate]. cbn [bind].
  destruct (if String.prefix "qmodel" mt then _ else _) as [[]|]; [|discriminate]. cbn [bind].
  destruct (truthy (get_default (step1 kw a) "adapt_damping" (VBool false))) as [d|] eqn:D; [|discriminate]. cbn [bind].
  intros E. exists a, d. split; [reflexivity|]. split; [exact D|].
  destruct d; [|congruence]. cbn zeta in *. destruct (has _ _ && has _ _); congruence.
Qed.

Lemma step1_other kw a k : k <> "adapt_damping" -> k <> "momentum" -> k <> "momentum_type" -> get (step1 kw a) k = get kw k.
Proof.
  intros A B C. destruct a; [|reflexivity]. unfold step1. rewrite get_update. cbn [get].
  destruct (String.eqb_spec "adapt_damping" k); [congruence|].
  destruct (String.eqb_spec "momentum" k); [congruence|].
  destruct (String.eqb_spec "momentum_type" k); [congruence|]. reflexivity.
Qed.
Lemma kw2_get kw a k :
  get (update (step1 kw a) (update [("use_passed_loss", VBool true); ("update_damping_immediately", VBool true)] (step1 kw a))) k =
  match get (step1 kw a) k with
  | Some v => Some v
  | None => get [("use_passed_loss", VBool true); ("update_damping_immediately", VBool true)] k
  end.
Proof. rewrite !get_update. destruct (get (step1 kw a) k); [reflexivity|]. destruct (get _ k); reflexivity. Qed.

Lemma configure_other kw ad kw' k : configure kw ad = Ok kw' -> ~ In k adaptive_keys -> get kw' k = get kw k.
Proof.
  intros E N. destruct (configure_ok _ _ _ E) as (a & d & _ & _ & ->).
  assert (S1 : get (step1 kw a) k = get kw k) by (apply step1_other; intros ->; apply N; cbn; auto 10).
  destruct d; [|exact S1]. cbn zeta.
  assert (S2 : get (update (step1 kw a) (update [("use_passed_loss", VBool true); ("update_damping_immediately", VBool true)] (step1 kw a))) k = get kw k).
  { rewrite kw2_get, S1. destruct (get kw k); [reflexivity|]. cbn [get].
    destruct (String.eqb_spec "use_passed_loss" k); [exfalso; apply N; subst; cbn; auto 10|].
    destruct (String.eqb_spec "update_damping_immediately" k); [exfalso; apply N; subst; cbn; auto 10|]. reflexivity. }
  destruct (has _ _ && has _ _); [exact S2|]. rewrite !get_set.
  destruct (String.eqb_spec "damping_adaptation_interval" k); [exfalso; apply N; subst; cbn; auto 10|].
  destruct (String.eqb_spec "invert_every" k); [exfalso; apply N; subst; cbn; auto 10|]. exact S2.
Qed.

Lemma configure_keeps kw ad kw' k v : configure kw ad = Ok kw' ->
  (k = "use_passed_loss" \/ k = "update_damping_immediately") -> get kw k = Some v -> get kw' k = Some v.
Proof.
  intros E K G. destruct (configure_ok _ _ _ E) as (a & d & _ & _ & ->).
  assert (S1 : get (step1 kw a) k = Some v) by (rewrite step1_other; [exact G| | |]; destruct K as [-> | ->]; discriminate).
  destruct d; [|exact S1]. cbn zeta.
  assert (S2 := kw2_get kw a k). rewrite S1 in S2.
  destruct (has _ _ && has _ _); [exact S2|]. rewrite !get_set.
  destruct (String.eqb_spec "damping_adaptation_interval" k); [destruct K; subst; discriminate|].
  destruct (String.eqb_spec "invert_every" k); [destruct K; subst; discriminate|]. exact S2.
Qed.

Lemma configure_intervals kw ad kw' v w : configure kw ad = Ok kw' ->
  get kw "invert_every" = Some v -> get kw "damping_adaptation_interval" = Some w ->
  get kw' "invert_every" = Some v /\ get kw' "damping_adaptation_interval" = Some w.
Proof.
  intros E G H. destruct (configure_ok _ _ _ E) as (a & d & _ & _ & ->).
  assert (S1 : get (step1 kw a) "invert_every" = Some v) by (rewrite step1_other; [exact G|discriminate|discriminate|discriminate]).
  assert (S1' : get (step1 kw a) "damping_adaptation_interval" = Some w) by (rewrite step1_other; [exact H|discriminate|discriminate|discriminate]).
  destruct d; [|auto]. cbn zeta.
  assert (S2 := kw2_get kw a "invert_every"). rewrite S1 in S2.
  assert (S2' := kw2_get kw a "damping_adaptation_interval"). rewrite S1' in S2'.
  unfold has. rewrite S2, S2'. cbn [andb]. auto.
Qed.

Lemma configure_fills kw ad kw' : configure kw ad = Ok kw' ->
  truthy (get_default kw' "adapt_damping" (VBool false)) = Ok true ->
  (get kw "use_passed_loss" = None -> get kw' "use_passed_loss" = Some (VBool true)) /\
  (get kw "update_damping_immediately" = None -> get kw' "update_damping_immediately" = Some (VBool true)) /\
  (get kw "invert_every" = None \/ get kw "damping_adaptation_interval" = None ->
     get kw' "invert_every" = Some (VNum 5) /\ get kw' "damping_adaptation_interval" = Some (VNum 5)).
Proof.
  intros E T. destruct (configure_ok _ _ _ E) as (a & d & A & D & X).
  destruct d.
  - cbn zeta in X.
    assert (Hs : forall k, k <> "adapt_damping" -> k <> "momentum" -> k <> "momentum_type" -> get (step1 kw a) k = get kw k) by (apply step1_other).
    assert (K2 := kw2_get kw a).
    set (kw2 := update (step1 kw a) _) in *. clearbody kw2.
    split; [|split].
    + intros N. assert (K := K2 "use_passed_loss"). rewrite Hs, N in K by discriminate.
      subst kw'. destruct (has _ _ && has _ _); [exact K|]. rewrite !get_set. exact K.
    + intros N. assert (K := K2 "update_damping_immediately"). rewrite Hs, N in K by discriminate.
      subst kw'. destruct (has _ _ && has _ _); [exact K|]. rewrite !get_set. exact K.
    + intros N. assert (F : has kw2 "invert_every" && has kw2 "damping_adaptation_interval" = false).
      { apply andb_false_iff. unfold has. rewrite (K2 "invert_every"), (K2 "damping_adaptation_interval").
        rewrite !Hs by discriminate. destruct N as [-> | ->]; [left|right]; reflexivity. }
      rewrite F in X. subst kw'. rewrite !get_set. split; reflexivity.
  - exfalso. subst kw'. rewrite D in T. discriminate.
Qed.

Lemma configure_lr kw lr : truthy lr = Ok true -> get kw "learning_rate" = Some lr ->
  configure kw (VBool true) = Raise ValueError.
Proof.
  intros T G. unfold configure. cbn [truthy bind]. fold (step1 kw true). unfold get_default at 1. 
  assert (M : get (step1 kw true) "momentum_type" = Some (VStr "qmodel")) by (unfold step1; rewrite get_update; reflexivity).
  rewrite M. cbn [lower_of bind]. change (String.prefix "qmodel" (lower "qmodel")) with true. cbn iota.
  unfold getitem. rewrite step1_other, G by discriminate. cbn [bind]. rewrite T. reflexivity.
Qed.

(* ------------------------------------------------------------------------ *)
(** * The constructor *)

Definition kw0 (a : kfac_args) : dict :=
  update (k_kwargs a) [("name", VStr (k_name a)); ("learning_rate", k_learning_rate a); ("damping", k_damping a)].
Definition config_of (a : kfac_args) (kw1 : dict) (sf sl : pyval) : dict :=
  set (update (update default_kwargs kw1) [("loss_weights", k_loss_weights a); ("fisher_approx", sf); ("seed", k_seed a)]) "loss" sl.
Definition kw2_of (kw1 : dict) : dict :=
  match get kw1 "loss_tensor" with Some t => set (remove kw1 "loss_tensor") "loss" t | None => kw1 end.
Definition hypers_of (config : dict) (ad : bool) (mt : string) : list string :=
  let hypers0 := if ad then filter (fun h => negb (String.eqb h "damping")) mutable_hyper_params else mutable_hyper_params in
  let hypers1 := if String.prefix "qmodel" mt
                 then filter (fun h => negb (String.eqb h "learning_rate" || String.eqb h "momentum")) hypers0
                 else hypers0 in
  filter (fun h => negb (is_none (get_default config h VNone))) hypers1.

Section Init.
Variables sl_fun sf_fun : pyval -> res pyval.

Lemma kfac_init_ok a o : kfac_init sl_fun sf_fun a = Ok o ->
  exists kw1 sf sl ad mt tb ad2, truthy (k_sentinel a) = Ok false /\ is_none (k_damping a) = false /\
    has (k_kwargs a) "clipvalue" = false /\ has (k_kwargs a) "clipnorm" = false /\
    configure (kw0 a) (k_adaptive a) = Ok kw1 /\ sf_fun (k_fisher_approx a) = Ok sf /\ sl_fun (k_loss a) = Ok sl /\
    o_config o = config_of a kw1 sf sl /\
    truthy (get_default (o_config o) "adapt_damping" VNone) = Ok ad /\
    lower_of (get_default (o_config o) "momentum_type" VNone) = Ok mt /\
    o_hyper o = map (fun h => (h, get_default (o_config o) h VNone)) (hypers_of (o_config o) ad mt) /\
    truthy (k_train_batch a) = Ok tb /\ truthy (get_default (kw2_of kw1) "adapt_damping" (VBool false)) = Ok ad2 /\
    (if tb && ad2 then register_train_batch (kw2_of kw1) (k_train_batch a) VNone else Ok (kw2_of kw1)) = Ok (o_kwargs o).
Proof.
  unfold kfac_init. fold (kw0 a). destruct (truthy (k_sentinel a)) as [[|]|] eqn:S; try discriminate. cbn [bind].
  destruct (is_none (k_damping a)) eqn:D; [discriminate|].
  destruct (has (k_kwargs a) "clipvalue") eqn:C1; [discriminate|].
  destruct (has (k_kwargs a) "clipnorm") eqn:C2; [discriminate|].
  destruct (configure (kw0 a) (k_adaptive a)) as [kw1|] eqn:K; [|discriminate]. cbn [bind].
  destruct (sf_fun (k_fisher_approx a)) as [sf|] eqn:SF; [|discriminate]. cbn [bind].
  destruct (sl_fun (k_loss a)) as [sl|] eqn:SL; [|discriminate]. cbn [bind].
  fold (config_of a kw1 sf sl). fold (kw2_of kw1).
  destruct (truthy (get_default (config_of a kw1 sf sl) "adapt_damping" VNone)) as [ad|] eqn:AD; [|discriminate]. cbn [bind].
  destruct (lower_of (get_default (config_of a kw1 sf sl) "momentum_type" VNone)) as [mt|] eqn:MT; [|discriminate]. cbn [bind].
  destruct (truthy (k_train_batch a)) as [tb|] eqn:TB; [|discriminate]. cbn [bind].
  destruct (truthy (get_default (kw2_of kw1) "adapt_damping" (VBool false))) as [ad2|] eqn:A2; [|discriminate]. cbn [bind].
  destruct (if tb && ad2 then _ else _) as [kw3|] eqn:K3; [|discriminate]. cbn [bind]. intros [= <-].
  exists kw1, sf, sl, ad, mt, tb, ad2. cbn [o_config o_hyper o_kwargs]. repeat (split; [first [reflexivity|assumption]|]). exact K3.
Qed.

Lemma get_config_of a kw1 sf sl k :
  get (config_of a kw1 sf sl) k =
    if String.eqb "loss" k then Some sl
    else if String.eqb "loss_weights" k then Some (k_loss_weights a)
    else if String.eqb "fisher_approx" k then Some sf
    else if String.eqb "seed" k then Some (k_seed a)
    else match get kw1 k with Some v => Some v | None => get default_kwargs k end.
Proof.
  unfold config_of. rewrite get_set, get_update, get_update. cbn [get].
  destruct (String.eqb "loss" k); [reflexivity|].
  destruct (String.eqb "loss_weights" k); [reflexivity|].
  destruct (String.eqb "fisher_approx" k); [reflexivity|].
  destruct (String.eqb "seed" k); reflexivity.
Qed.
Lemma get_kw2_of kw1 k :
  get (kw2_of kw1) k = match get kw1 "loss_tensor" with
                       | Some t => if String.eqb "loss" k then Some t else if String.eqb "loss_tensor" k then None else get kw1 k
                       | None => get kw1 k
                       end.
Proof.
  unfold kw2_of. destruct (get kw1 "loss_tensor") as [t|]; [|reflexivity]. rewrite get_set, get_remove. reflexivity.
Qed.

(** hypers *)
Lemma existsb_filter (P : string -> bool) l x : existsb (String.eqb x) (filter P l) = existsb (String.eqb x) l && P x.
Proof.
  induction l as [|y l IH]; [reflexivity|]. cbn [filter existsb].
  destruct (P y) eqn:E; cbn [existsb]; rewrite ?IH; destruct (String.eqb_spec x y) as [->|]; cbn; rewrite ?E; auto.
  rewrite andb_false_r. reflexivity.
Qed.

Lemma hypers_of_in config ad mt h : existsb (String.eqb h) (hypers_of config ad mt) = true <->
  In h mutable_hyper_params /\ get_default config h VNone <> VNone /\
  ~ (ad = true /\ h = "damping") /\ ~ (String.prefix "qmodel" mt = true /\ (h = "learning_rate" \/ h = "momentum")).
Proof.
  unfold hypers_of. rewrite existsb_filter.
  assert (M : existsb (String.eqb h) mutable_hyper_params = true <-> In h mutable_hyper_params).
  { rewrite existsb_exists. split; [intros (x & I & E); apply String.eqb_eq in E; subst; exact I|].
    intros I. exists h. split; [exact I|apply String.eqb_refl]. }
  assert (N : negb (is_none (get_default config h VNone)) = true <-> get_default config h VNone <> VNone).
  { destruct (get_default config h VNone); cbn; split; congruence. }
  rewrite andb_true_iff, N. clear N.
  destruct ad, (String.prefix "qmodel" mt); rewrite ?existsb_filter, ?andb_true_iff, M, ?negb_true_iff, ?orb_false_iff;
    rewrite ?String.eqb_neq; intuition congruence.
Qed.

(** The configuration is rebuilt. *)
Section RoundTrip.
Hypothesis SL : forall v w, sl_fun v = Ok w -> sl_fun w = Ok w.
Hypothesis SF : forall v w, sf_fun v = Ok w -> sf_fun w = Ok w.

Variables (a : kfac_args) (o : kfac) (h : dict).
Hypothesis Io : kfac_init sl_fun sf_fun a = Ok o.
Hypothesis Pn : forall k, In k init_params -> get (k_kwargs a) k = None.
Hypothesis Hk : map fst h = map fst (o_hyper o).
Hypothesis Hv : forall k, get h k <> Some VNone.
Hypothesis NoAdapt : truthy (get_default (o_config o) "adapt_damping" VNone) = Ok false.
Hypothesis NoQ : forall mt, lower_of (get_default (o_config o) "momentum_type" VNone) = Ok mt -> String.prefix "qmodel" mt = false.

Let o1 := mkKfac (o_kwargs o) (o_config o) h.

Lemma init_in k : existsb (String.eqb k) init_params = true <-> In k init_params.
Proof.
  rewrite existsb_exists. split; [intros (x & I & E); apply String.eqb_eq in E; subst; exact I|].
  intros I. exists k. split; [exact I|apply String.eqb_refl].
Qed.

Lemma round_trip :
  exists o2 kw kw', from_config sl_fun sf_fun (get_config o1) = Ok o2 /\
    create_optimizer o1 = Ok kw /\ create_optimizer o2 = Ok kw' /\
    (forall k, k <> "cov_ema_decay" -> setting kw' k = setting kw k) /\
    get (o_config o2) "cov_ema_decay" = get (o_config o) "cov_ema_decay" /\
    get kw' "cov_ema_decay" = get (o_config o) "cov_ema_decay" /\
    get kw "cov_ema_decay" = get (k_kwargs a) "cov_ema_decay" /\
    get_default (update default_kwargs kw') "cov_update_every" VNone =
      get_default (update default_kwargs kw) "cov_update_every" VNone.
Proof.
  destruct (kfac_init_ok a o Io) as (kw1 & sf & sl & ad & mt & tb & ad2 & S & D & C1 & C2 & K & Esf & Esl & Ec & AD & MT & Eh & TB & A2 & E3).
  rewrite NoAdapt in AD. injection AD as <-. specialize (NoQ mt MT).
  (* no adaptive mode: kw1 = kw0 a *)
  assert (Adp : truthy (k_adaptive a) = Ok false /\ kw1 = kw0 a).
  { destruct (configure_ok _ _ _ K) as (b & d & B & Dd & ->).
    assert (Gc : get_default (o_config o) "adapt_damping" VNone = get_default (step1 (kw0 a) b) "adapt_damping" (VBool false)).
    { rewrite Ec. unfold get_default at 1. rewrite get_config_of. change (String.eqb "loss" "adapt_damping") with false.
      change (String.eqb "loss_weights" "adapt_damping") with false. change (String.eqb "fisher_approx" "adapt_damping") with false.
      change (String.eqb "seed" "adapt_damping") with false. cbn iota. unfold get_default.
      destruct d; cbn zeta.
      - set (kk := update (step1 (kw0 a) b) _).
        assert (X : get (if has kk "invert_every" && has kk "damping_adaptation_interval" then kk
           else set (set kk "invert_every" (VNum 5)) "damping_adaptation_interval" (VNum 5)) "adapt_damping" = get (step1 (kw0 a) b) "adapt_damping").
        { destruct (has kk _ && has kk _); [|rewrite !get_set; change (String.eqb "damping_adaptation_interval" "adapt_damping") with false;
            change (String.eqb "invert_every" "adapt_damping") with false; cbn iota]; unfold kk; rewrite kw2_get; destruct (get (step1 (kw0 a) b) "adapt_damping"); reflexivity. }
        rewrite X. destruct (get (step1 (kw0 a) b) "adapt_damping"); reflexivity.
      - destruct (get (step1 (kw0 a) b) "adapt_damping"); reflexivity. }
    rewrite Gc in NoAdapt. rewrite NoAdapt in Dd. injection Dd as <-. destruct b.
    - exfalso. unfold step1, get_default in NoAdapt. rewrite get_update in NoAdapt. discriminate NoAdapt.
    - split; [exact B|reflexivity]. }
  destruct Adp as [Aa ->].
  (* values of the pieces *)
  assert (G0 : forall k, get (kw0 a) k = if String.eqb "name" k then Some (VStr (k_name a)) else if String.eqb "learning_rate" k then Some (k_learning_rate a)
                 else if String.eqb "damping" k then Some (k_damping a) else get (k_kwargs a) k).
  { intros k. unfold kw0. rewrite get_update. cbn [get]. destruct (String.eqb "name" k); [reflexivity|].
    destruct (String.eqb "learning_rate" k); [reflexivity|]. destruct (String.eqb "damping" k); reflexivity. }
  assert (Ec' : forall k, get (o_config o) k = if String.eqb "loss" k then Some sl
    else if String.eqb "loss_weights" k then Some (k_loss_weights a) else if String.eqb "fisher_approx" k then Some sf
    else if String.eqb "seed" k then Some (k_seed a)
    else match get (kw0 a) k with Some v => Some v | None => get default_kwargs k end).
  { intros k. rewrite Ec. apply get_config_of. }
  assert (A2' : ad2 = false).
  { assert (X : get (kw2_of (kw0 a)) "adapt_damping" = get (k_kwargs a) "adapt_damping").
    { rewrite get_kw2_of. rewrite (G0 "adapt_damping"). destruct (get (kw0 a) "loss_tensor"); reflexivity. }
    unfold get_default in A2. rewrite X in A2.
    pose proof NoAdapt as Y. unfold get_default in Y. rewrite Ec', (G0 "adapt_damping") in Y.
    change (String.eqb "loss" "adapt_damping") with false in Y. change (String.eqb "loss_weights" "adapt_damping") with false in Y.
    change (String.eqb "fisher_approx" "adapt_damping") with false in Y. change (String.eqb "seed" "adapt_damping") with false in Y.
    change (String.eqb "name" "adapt_damping") with false in Y. change (String.eqb "learning_rate" "adapt_damping") with false in Y.
    change (String.eqb "damping" "adapt_damping") with false in Y. cbn iota in Y.
    destruct (get (k_kwargs a) "adapt_damping"); [congruence|]. cbn in A2. congruence. }
  subst ad2. rewrite andb_false_r in E3. injection E3 as E3.
  (* the hypers *)
  assert (Gh : forall k, (exists v, get h k = Some v) <-> existsb (String.eqb k) (hypers_of (o_config o) false mt) = true).
  { intros k. rewrite get_some_key, Hk, <- get_some_key, Eh, get_map_fst.
    destruct (existsb _ _); split; [reflexivity|eauto|intros (v & [=])|discriminate]. }
  assert (Gc : forall k, get (get_config o1) k = match get h k with Some v => Some v | None => get (o_config o) k end).
  { intros k. unfold get_config. cbn [o_config o_hyper o1]. apply get_update. }
  assert (Hm : forall k, (exists v, get h k = Some v) -> In k mutable_hyper_params /\ get_default (o_config o) k VNone <> VNone).
  { intros k E. apply Gh, hypers_of_in in E. intuition. }
  assert (Hn : forall k, ~ In k mutable_hyper_params -> get h k = None).
  { intros k N. destruct (get h k) eqn:E; [|reflexivity]. exfalso. apply N, (Hm k). eauto. }
  set (c := get_config o1) in *.
  set (a2 := mkKArgs (get_default c "_sentinel" VNone) (get_default c "learning_rate" VNone)
    (get_default c "damping" VNone) (get_default c "loss" VNone) (get_default c "loss_weights" VNone)
    (get_default c "fisher_approx" VNone) (get_default c "adaptive" (VBool false))
    (get_default c "train_batch" VNone)
    (match get c "name" with Some (VStr s) => s | _ => "kfac" end)
    (get_default c "seed" VNone)
    (filter (fun p => negb (existsb (String.eqb (fst p)) init_params)) c)).
  assert (Gk2 : forall k, get (k_kwargs a2) k = if existsb (String.eqb k) init_params then None else get c k).
  { intros k. cbn [k_kwargs a2]. rewrite (get_filter (fun k => negb (existsb (String.eqb k) init_params))).
    destruct (existsb _ _); reflexivity. }
  assert (Cn : forall k, In k init_params -> get (kw0 a) k = (if String.eqb "name" k then Some (VStr (k_name a)) else if String.eqb "learning_rate" k then Some (k_learning_rate a)
                 else if String.eqb "damping" k then Some (k_damping a) else None)).
  { intros k I. rewrite G0, (Pn k I). reflexivity. }
  assert (Cname : get c "name" = Some (VStr (k_name a))).
  { rewrite Gc, Hn by (cbn; intuition discriminate). rewrite Ec', Cn by (cbn; auto 20). reflexivity. }
  (* kw0 of the rebuilt arguments *)
  assert (G02 : forall k, get (kw0 a2) k = if String.eqb "name" k then Some (VStr (k_name a))
       else if String.eqb "learning_rate" k then Some (get_default c "learning_rate" VNone)
       else if String.eqb "damping" k then Some (get_default c "damping" VNone)
       else if existsb (String.eqb k) init_params then None else get c k).
  { intros k. unfold kw0. rewrite get_update. cbn [get]. rewrite Gk2. cbn [k_name k_learning_rate k_damping a2]. rewrite Cname.
    destruct (String.eqb "name" k); [reflexivity|]. destruct (String.eqb "learning_rate" k); [reflexivity|].
    destruct (String.eqb "damping" k); reflexivity. }
  assert (Hnum : forall k, ~ In k mutable_hyper_params -> ~ In k init_params -> get (kw0 a2) k = get (o_config o) k).
  { intros k Nm Ni. rewrite G02. destruct (String.eqb_spec "name" k) as [<-|]; [exfalso; apply Ni; cbn; auto 20|].
    destruct (String.eqb_spec "learning_rate" k) as [<-|]; [exfalso; apply Ni; cbn; auto 20|].
    destruct (String.eqb_spec "damping" k) as [<-|]; [exfalso; apply Ni; cbn; auto 20|].
    destruct (existsb (String.eqb k) init_params) eqn:X; [apply init_in in X; contradiction|]. rewrite Gc, Hn by exact Nm. reflexivity. }
  assert (Gmt : get_default (kw0 a2) "momentum_type" (VStr "regular") = get_default (o_config o) "momentum_type" VNone).
  { unfold get_default. rewrite (Hnum "momentum_type") by (cbn; intuition discriminate). rewrite Ec', G0. cbn. destruct (get (k_kwargs a) "momentum_type"); reflexivity. }
  assert (Gad : truthy (get_default (kw0 a2) "adapt_damping" (VBool false)) = Ok false).
  { unfold get_default. rewrite (Hnum "adapt_damping") by (cbn; intuition discriminate).
    unfold get_default in NoAdapt. destruct (get (o_config o) "adapt_damping"); [exact NoAdapt|reflexivity]. }
  assert (Ca : get c "adaptive" = None).
  { rewrite Gc, Hn by (cbn; intuition discriminate). rewrite Ec', Cn by (cbn; auto 20). reflexivity. }
  assert (Cf : configure (kw0 a2) (k_adaptive a2) = Ok (kw0 a2)).
  { apply configure_plain with mt; [cbn [k_adaptive a2]; unfold get_default; rewrite Ca; reflexivity|rewrite Gmt; exact MT|exact NoQ|exact Gad]. }
  assert (Csf : get c "fisher_approx" = Some sf) by (rewrite Gc, Hn by (cbn; intuition discriminate); rewrite Ec'; reflexivity).
  assert (Csl : get c "loss" = Some sl) by (rewrite Gc, Hn by (cbn; intuition discriminate); rewrite Ec'; reflexivity).
  assert (Clw : get c "loss_weights" = Some (k_loss_weights a)) by (rewrite Gc, Hn by (cbn; intuition discriminate); rewrite Ec'; reflexivity).
  assert (Csd : get c "seed" = Some (k_seed a)) by (rewrite Gc, Hn by (cbn; intuition discriminate); rewrite Ec'; reflexivity).
  assert (Ctb : get c "train_batch" = Some VNone).
  { rewrite Gc, Hn by (cbn; intuition discriminate). rewrite Ec', Cn by (cbn; auto 20). reflexivity. }
  assert (Cst : get c "_sentinel" = None).
  { rewrite Gc, Hn by (cbn; intuition discriminate). rewrite Ec', Cn by (cbn; auto 20). reflexivity. }
  set (config2 := config_of a2 (kw0 a2) sf sl).
  assert (Ec2 : forall k, get config2 k = if String.eqb "loss" k then Some sl
    else if String.eqb "loss_weights" k then Some (k_loss_weights a) else if String.eqb "fisher_approx" k then Some sf
    else if String.eqb "seed" k then Some (k_seed a)
    else match get (kw0 a2) k with Some v => Some v | None => get default_kwargs k end).
  { intros k. unfold config2. rewrite get_config_of. cbn [k_loss_weights k_seed a2]. unfold get_default. rewrite Clw, Csd. reflexivity. }
  (* the configuration is the same up to the hyperparameters *)
  assert (Hc2 : forall k, get config2 k = get c k).
  { intros k. rewrite Ec2.
    destruct (String.eqb_spec "loss" k) as [<-|N1]; [congruence|].
    destruct (String.eqb_spec "loss_weights" k) as [<-|N2]; [congruence|].
    destruct (String.eqb_spec "fisher_approx" k) as [<-|N3]; [congruence|].
    destruct (String.eqb_spec "seed" k) as [<-|N4]; [congruence|].
    rewrite G02. destruct (String.eqb_spec "name" k) as [<-|N5]; [congruence|].
    assert (Cl : exists v, get c "learning_rate" = Some v).
    { rewrite Gc. destruct (get h "learning_rate"); [eauto|]. rewrite Ec', Cn by (cbn; auto 20). eexists; reflexivity. }
    assert (Cd : exists v, get c "damping" = Some v).
    { rewrite Gc. destruct (get h "damping"); [eauto|]. rewrite Ec', Cn by (cbn; auto 20). eexists; reflexivity. }
    destruct (String.eqb_spec "learning_rate" k) as [<-|N6]; [unfold get_default; destruct Cl as (v & ->); reflexivity|].
    destruct (String.eqb_spec "damping" k) as [<-|N7]; [unfold get_default; destruct Cd as (v & ->); reflexivity|].
    destruct (existsb (String.eqb k) init_params) eqn:X.
    - apply init_in in X. cbn in X. repeat (destruct X as [<-|X]; [try congruence; try (symmetry; assumption)|]); [| |destruct X].
      + symmetry. change (get default_kwargs "model") with (@None pyval). rewrite Gc, Hn by (cbn; intuition discriminate). rewrite Ec', Cn by (cbn; auto 20). reflexivity.
      + symmetry. change (get default_kwargs "layer_collection") with (@None pyval). rewrite Gc, Hn by (cbn; intuition discriminate). rewrite Ec', Cn by (cbn; auto 20). reflexivity.
    - destruct (get c k) eqn:Y; [reflexivity|]. rewrite Gc in Y. destruct (get h k); [discriminate|]. rewrite Ec' in Y.
      destruct (String.eqb "loss" k); [discriminate|]. destruct (String.eqb "loss_weights" k); [discriminate|].
      destruct (String.eqb "fisher_approx" k); [discriminate|]. destruct (String.eqb "seed" k); [discriminate|].
      destruct (get (kw0 a) k); [discriminate|exact Y]. }
  set (h2 := map (fun x => (x, get_default config2 x VNone)) (hypers_of config2 false mt)).
  assert (Hh2 : forall k, get h2 k = get h k).
  { intros k. unfold h2. rewrite get_map_fst.
    destruct (existsb (String.eqb k) (hypers_of config2 false mt)) eqn:X.
    - unfold get_default. rewrite Hc2, Gc. destruct (get h k) as [v|] eqn:Y; [reflexivity|]. exfalso.
      apply hypers_of_in in X. unfold get_default in X. rewrite Hc2, Gc, Y in X.
      assert (Z : exists v, get h k = Some v) by (apply Gh, hypers_of_in; unfold get_default; intuition). destruct Z; congruence.
    - destruct (get h k) as [v|] eqn:Y; [|reflexivity]. exfalso. assert (Z : existsb (String.eqb k) (hypers_of config2 false mt) = true); [|congruence].
      assert (W : exists v, get h k = Some v) by eauto. apply Gh, hypers_of_in in W. apply hypers_of_in.
      unfold get_default in *. rewrite Hc2, Gc, Y. intuition. subst v. apply (Hv k Y). }
  set (o2 := mkKfac (kw2_of (kw0 a2)) config2 h2).
  assert (Init2 : from_config sl_fun sf_fun c = Ok o2).
  { unfold from_config. fold a2. unfold kfac_init. fold (kw0 a2).
    assert (X : truthy (k_sentinel a2) = Ok false) by (cbn [k_sentinel a2]; unfold get_default; rewrite Cst; reflexivity). rewrite X. cbn [bind].
    assert (X2 : is_none (k_damping a2) = false).
    { cbn [k_damping a2]. unfold get_default. rewrite Gc. destruct (get h "damping") as [v|] eqn:Y; [destruct v; try reflexivity; destruct (Hv _ Y)|].
      rewrite Ec', Cn by (cbn; auto 20). exact D. }
    rewrite X2.
    assert (X3 : forall k, k = "clipvalue" \/ k = "clipnorm" -> has (k_kwargs a2) k = false).
    { intros k Hk'. unfold has. rewrite Gk2. destruct (existsb _ _) eqn:Z; [reflexivity|]. rewrite Gc, Hn by (destruct Hk' as [-> | ->]; cbn; intuition discriminate).
      rewrite Ec', G0. assert (Y : get (k_kwargs a) k = None).
      { destruct Hk' as [-> | ->]; [unfold has in C1; destruct (get _ _); [discriminate|reflexivity]|unfold has in C2; destruct (get _ _); [discriminate|reflexivity]]. }
      rewrite Y. destruct Hk' as [-> | ->]; reflexivity. }
    rewrite (X3 "clipvalue"), (X3 "clipnorm") by auto. rewrite Cf. cbn [bind].
    cbn [k_fisher_approx k_loss a2]. unfold get_default at 1 2. rewrite Csf, Csl. rewrite (SF _ _ Esf), (SL _ _ Esl). cbn [bind].
    fold a2. fold (config_of a2 (kw0 a2) sf sl). fold config2. fold (kw2_of (kw0 a2)).
    assert (X4 : get_default config2 "adapt_damping" VNone = get_default (o_config o) "adapt_damping" VNone).
    { unfold get_default. rewrite Hc2, Gc, Hn by (cbn; intuition discriminate). reflexivity. }
    assert (X5 : get_default config2 "momentum_type" VNone = get_default (o_config o) "momentum_type" VNone).
    { unfold get_default. rewrite Hc2, Gc, Hn by (cbn; intuition discriminate). reflexivity. }
    rewrite X4, X5, NoAdapt, MT. cbn [bind].
    assert (X6 : k_train_batch a2 = VNone) by (cbn [k_train_batch a2]; unfold get_default; rewrite Ctb; reflexivity).
    rewrite X6. cbn [truthy bind].
    assert (X7 : truthy (get_default (kw2_of (kw0 a2)) "adapt_damping" (VBool false)) = Ok false).
    { unfold get_default in *. rewrite get_kw2_of. destruct (get (kw0 a2) "loss_tensor"); exact Gad. }
    rewrite X7. cbn [bind andb]. reflexivity. }
  exists o2, (update (o_kwargs o) h), (update (kw2_of (kw0 a2)) h2).
  split; [exact Init2|]. split.
  { unfold create_optimizer. cbn [o_config o_kwargs o_hyper o1]. rewrite NoAdapt. reflexivity. }
  split.
  { unfold create_optimizer. cbn [o_config o_kwargs o_hyper o2].
    assert (X4 : get_default config2 "adapt_damping" VNone = get_default (o_config o) "adapt_damping" VNone).
    { unfold get_default. rewrite Hc2, Gc, Hn by (cbn; intuition discriminate). reflexivity. }
    rewrite X4, NoAdapt. reflexivity. }
  assert (Lt : get (kw0 a2) "loss_tensor" = get (kw0 a) "loss_tensor").
  { rewrite (Hnum "loss_tensor") by (cbn; intuition discriminate). rewrite Ec'. cbn.
    change (match get (kw0 a) "loss_tensor" with Some v => Some v | None => None end = get (kw0 a) "loss_tensor"). destruct (get (kw0 a) "loss_tensor"); reflexivity. }
  (* values passed on *)
  assert (V2 : forall k, get (update (kw2_of (kw0 a2)) h2) k = match get h k with Some v => Some v | None => get (kw2_of (kw0 a2)) k end).
  { intros k. rewrite get_update, Hh2. reflexivity. }
  assert (V1 : forall k, get (update (o_kwargs o) h) k = match get h k with Some v => Some v | None => get (kw2_of (kw0 a)) k end).
  { intros k. rewrite get_update, <- E3. reflexivity. }
  assert (Key : forall k, match get (update (kw2_of (kw0 a2)) h2) k with Some v => Some v | None => get default_kwargs k end =
                          match get (update (o_kwargs o) h) k with Some v => Some v | None => get default_kwargs k end).
  { intros k. rewrite V1, V2. destruct (get h k) as [v|] eqn:Y; [reflexivity|]. rewrite !get_kw2_of, Lt.
    assert (Z : k <> "loss" -> k <> "loss_tensor" -> match get (kw0 a2) k with Some v => Some v | None => get default_kwargs k end =
                match get (kw0 a) k with Some v => Some v | None => get default_kwargs k end).
    { intros Nl Nt. rewrite G02, Gc, Y.
      destruct (String.eqb_spec "name" k) as [<-|N5]; [rewrite G0; reflexivity|].
      destruct (String.eqb_spec "learning_rate" k) as [<-|N6].
      { unfold get_default. rewrite Gc, Y, Ec', G0. reflexivity. }
      destruct (String.eqb_spec "damping" k) as [<-|N7].
      { unfold get_default. rewrite Gc, Y, Ec', G0. reflexivity. }
      destruct (existsb (String.eqb k) init_params) eqn:X.
      - apply init_in in X. rewrite Cn by exact X.
        destruct (String.eqb_spec "name" k); [contradiction|]. destruct (String.eqb_spec "learning_rate" k); [contradiction|].
        destruct (String.eqb_spec "damping" k); [contradiction|]. reflexivity.
      - rewrite Ec'. destruct (String.eqb_spec "loss" k); [congruence|].
        destruct (String.eqb_spec "loss_weights" k) as [<-|]; [discriminate X|].
        destruct (String.eqb_spec "fisher_approx" k) as [<-|]; [discriminate X|].
        destruct (String.eqb_spec "seed" k) as [<-|]; [discriminate X|].
        destruct (get (kw0 a) k); [reflexivity|]. destruct (get default_kwargs k); reflexivity. }
    assert (Zl : get (kw0 a2) "loss" = None /\ get (kw0 a) "loss" = None).
    { rewrite G02, Cn by (cbn; auto 20). split; reflexivity. }
    destruct (get (kw0 a) "loss_tensor") as [t|] eqn:T.
    - destruct (String.eqb_spec "loss" k) as [<-|Nl]; [reflexivity|].
      destruct (String.eqb_spec "loss_tensor" k) as [<-|Nt]; [reflexivity|]. apply Z; congruence.
    - destruct (String.eqb_spec "loss" k) as [<-|Nl]; [destruct Zl as [-> ->]; reflexivity|].
      destruct (String.eqb_spec "loss_tensor" k) as [<-|Nt]; [rewrite Lt, T; reflexivity|]. apply Z; congruence. }
  split; [|split; [|split; [|split]]].
  - intros k Nk. unfold setting. specialize (Key k). destruct (String.eqb_spec k "cov_ema_decay"); [contradiction|].
    destruct (get (update (kw2_of (kw0 a2)) h2) k), (get (update (o_kwargs o) h) k); congruence.
  - cbn [o_config o2]. rewrite Hc2, Gc, Hn by (cbn; intuition discriminate). reflexivity.
  - rewrite V2, Hn by (cbn; intuition discriminate). rewrite get_kw2_of.
    assert (Y : get (kw0 a2) "cov_ema_decay" = get (o_config o) "cov_ema_decay") by (apply Hnum; cbn; intuition discriminate).
    destruct (get (kw0 a2) "loss_tensor"); exact Y.
  - rewrite V1, Hn by (cbn; intuition discriminate). rewrite get_kw2_of.
    assert (Y : get (kw0 a) "cov_ema_decay" = get (k_kwargs a) "cov_ema_decay") by (rewrite G0; reflexivity).
    destruct (get (kw0 a) "loss_tensor"); exact Y.
  - unfold get_default. rewrite !(get_update default_kwargs), Key. reflexivity.
Qed.
End RoundTrip.
End Init.
