(** The name of a factor determines what it shows of the factor. *)
From Coq Require Import String Ascii List Arith Bool Lia.
From Verif.Base Require Import Py.
From Verif.Names Require Import Model Spec StringProofs.
Import ListNotations.
Open Scope string_scope.
Open Scope nat_scope.
Open Scope list_scope.

Local Arguments String.append : simpl nomatch.

(** Fields, each followed by an underscore. *)
Fixpoint fields (ss : list string) : string :=
  match ss with [] => "" | s :: ss' => (s ++ "_" ++ fields ss')%string end.

Lemma fields_app a b : fields (a ++ b) = (fields a ++ fields b)%string.
Proof. induction a as [|s a IH]; cbn [fields app]; [reflexivity|]. rewrite IH, !sapp_assoc. reflexivity. Qed.

Lemma concat_fields ss : ss <> [] -> (String.concat "_" ss ++ "_")%string = fields ss.
Proof.
  induction ss as [|s [|s' ss] IH]; intros N; [congruence| |].
  - cbn. reflexivity.
  - change (String.concat "_" (s :: s' :: ss)) with (s ++ "_" ++ String.concat "_" (s' :: ss))%string.
    rewrite !sapp_assoc, IH by congruence. reflexivity.
Qed.

Lemma text_app w a b : text w (a ++ b) = (text w a ++ text w b)%string.
Proof.
  induction a as [|[t x] a IH]; cbn [text app]; [reflexivity|]. rewrite IH, !sapp_assoc. reflexivity.
Qed.

Lemma join_text w ts : ts <> [] ->
  (String.concat "__" (map (word w) ts) ++ "_")%string = text w (toks ts).
Proof.
  induction ts as [|t [|u ts] IH]; intros N; [congruence| |].
  - cbn. reflexivity.
  - change (String.concat "__" (map (word w) (t :: u :: ts)))
      with (word w t ++ "__" ++ String.concat "__" (map (word w) (u :: ts)))%string.
    change (toks (t :: u :: ts)) with ((t, true) :: toks (u :: ts)).
    cbn [text]. rewrite !sapp_assoc, IH by congruence. reflexivity.
Qed.

Lemma name_tensors w ts :
  scope_string_from_name w (PSeq (map (fun t => PObj (OTensor t)) ts))
  = Ok (String.concat "__" (map (word w) ts)).
Proof.
  cbn [scope_string_from_name].
  assert (E : forall l, (fix go (l : list param) : res (list string) :=
                  match l with
                  | [] => Ok []
                  | q :: l' => do s <- scope_string_from_name w q ; do ss <- go l' ; Ok (s :: ss)
                  end) (map (fun t => PObj (OTensor t)) l) = Ok (map (word w) l)).
  { induction l as [|t l IH]; [reflexivity|]. cbn [map]. rewrite IH. reflexivity. }
  rewrite E. reflexivity.
Qed.

Definition obj_text (w : world) (o : obj) : string :=
  String.concat "__" (map (word w) (tensors_of o)).

Lemma name_obj w o : name_part w (PObj o) = Ok (obj_text w o).
Proof. destruct o as [t|ts]; [reflexivity|]. cbn [name_part]. apply name_tensors. Qed.

Lemma mapm_app {A B} (f : A -> res B) a b :
  mapm f (a ++ b) = (do x <- mapm f a ; do y <- mapm f b ; Ok (x ++ y)).
Proof.
  induction a as [|x a IH]; cbn.
  - destruct (mapm f b); reflexivity.
  - destruct (f x); [|reflexivity]. cbn. rewrite IH.
    destruct (mapm f a); [|reflexivity]. cbn. destruct (mapm f b); reflexivity.
Qed.

Lemma name_objs w os : mapm (name_part w) (pobjs os) = Ok (map (obj_text w) os).
Proof.
  induction os as [|o os IH]; [reflexivity|].
  cbn [pobjs map mapm]. rewrite name_obj. fold (pobjs os). cbn [bind]. rewrite IH. reflexivity.
Qed.

Lemma fields_objs w os :
  (forall g, In g (map tensors_of os) -> g <> []) ->
  fields (map (obj_text w) os) = text w (all_toks (map tensors_of os)).
Proof.
  induction os as [|o os IH]; intros N; [reflexivity|].
  cbn [map fields]. unfold all_toks. cbn [map concat]. rewrite text_app.
  rewrite <- join_text by (apply N; simpl; auto).
  rewrite sapp_assoc, IH by (intros; apply N; simpl; auto). reflexivity.
Qed.

(** Tensors in tuples. *)
Lemma plain_tensors os : Forall plain_obj os -> pobjs os = map (fun t => PObj (OTensor t)) (together os).
Proof.
  induction 1 as [|o os P _ IH]; [reflexivity|]. destruct o as [t|]; [|destruct P].
  unfold together in *. cbn. f_equal. exact IH.
Qed.

Lemma not_ints l : l <> [] -> forallb is_int (map (fun t => PObj (OTensor t)) l) = false.
Proof. destruct l; [congruence|reflexivity]. Qed.

Lemma together_app a b : together (a ++ b) = together a ++ together b.
Proof. unfold together. rewrite map_app, concat_app. reflexivity. Qed.

Lemma name_tuple w os : Forall plain_obj os -> together os <> [] ->
  name_part w (PSeq (pobjs os)) = Ok (String.concat "__" (map (word w) (together os))).
Proof.
  intros P N. rewrite plain_tensors by auto. cbn [name_part]. rewrite not_ints by auto.
  apply name_tensors.
Qed.

Lemma concat_app_str sep a b : a <> [] -> b <> [] ->
  String.concat sep (a ++ b) = (String.concat sep a ++ sep ++ String.concat sep b)%string.
Proof.
  induction a as [|s [|s' a] IH]; intros A B; [congruence| |].
  - destruct b; [congruence|]. reflexivity.
  - change ((s :: s' :: a) ++ b) with (s :: (s' :: a) ++ b).
    assert (E : forall x l, l <> [] ->
              String.concat sep (x :: l) = (x ++ sep ++ String.concat sep l)%string)
      by (intros x [|y l] N; [congruence|reflexivity]).
    rewrite E by (destruct b; cbn; congruence). rewrite IH by congruence.
    rewrite (E s (s' :: a)) by congruence. rewrite !sapp_assoc. reflexivity.
Qed.

Lemma Forall_concat' {A} (P : A -> Prop) l : Forall (Forall P) l -> Forall P (concat l).
Proof. induction 1; cbn; [constructor|]. apply Forall_app; auto. Qed.

Lemma name_tuples w gss : Forall (Forall plain_obj) gss -> Forall (fun g => g <> []) gss ->
  gss <> [] ->
  name_part w (PSeq (pobjss gss)) = Ok (String.concat "__" (map (word w) (together (concat gss)))).
Proof.
  intros P N NE.
  assert (T : forall os, Forall plain_obj os -> os <> [] -> together os <> []).
  { intros [|[t|ts] os] F E; try congruence; inversion F; [|destruct H1]. discriminate. }
  assert (K : forall l, Forall (Forall plain_obj) l -> Forall (fun g => g <> []) l ->
    (fix go (l : list param) : res (list string) :=
       match l with
       | [] => Ok []
       | q :: l' => do s <- scope_string_from_name w q ; do ss <- go l' ; Ok (s :: ss)
       end) (pobjss l) = Ok (map (fun g => String.concat "__" (map (word w) (together g))) l)).
  { induction l as [|g l IH]; intros Q M; [reflexivity|].
    inversion Q; inversion M; subst. cbn [pobjss map].
    rewrite (plain_tensors g) by auto. rewrite name_tensors. cbn [bind].
    fold (pobjss l). rewrite IH by auto. reflexivity. }
  assert (F : forallb is_int (pobjss gss) = false) by (destruct gss; [congruence|reflexivity]).
  cbn [name_part]. rewrite F. cbn [scope_string_from_name]. rewrite K by auto. cbn [bind]. f_equal.
  clear K F. induction gss as [|g l IH]; [congruence|].
  inversion P; inversion N; subst. cbn [map concat].
  destruct l as [|g' l].
  - cbn [concat]. rewrite app_nil_r. reflexivity.
  - rewrite together_app, map_app, concat_app_str.
    + rewrite <- IH by (auto; discriminate). reflexivity.
    + intros E. apply map_eq_nil in E. revert E. apply T; auto.
    + intros E. apply map_eq_nil in E. revert E. apply T.
      * apply Forall_concat'. exact (Forall_inv_tail P).
      * pose proof (Forall_inv (Forall_inv_tail N)) as Q. cbn in Q.
        cbn. destruct g'; cbn; congruence.
Qed.

(* ------------------------------------------------------------------------ *)
(** * The form of a name *)

Definition arg_str (w : world) (a : arg) : string :=
  match a with
  | ANone => "None" | AInt n => str_int n | AInts l => ints_str l | ABool b => str_bool b
  | AStr s => s | ATensor t => word w t
  end.

Lemma name_ints w l : name_part w (pints l) = Ok (ints_str l).
Proof.
  unfold pints. cbn [name_part]. destruct (ints_param l) as [-> ->]. reflexivity.
Qed.
Lemma name_oints w l : name_part w (points l) = Ok (arg_str w (aints l)).
Proof. destruct l; [apply name_ints|reflexivity]. Qed.
Lemma name_ostr w s : name_part w (postr s) = Ok (arg_str w (astr s)).
Proof. destruct s; reflexivity. Qed.
Lemma name_otensor w t : name_part w (potensor t) = Ok (arg_str w (atensor t)).
Proof. destruct t; reflexivity. Qed.
Lemma name_ouses w u : name_part w (pouses u) = Ok (arg_str w (auses u)).
Proof. destruct u; reflexivity. Qed.

(** Its first part, the groups of words, and the settings. *)
Definition pre_of (f : factor) : string :=
  match f with
  | NaiveFull _ _ => "ff_naivefull_" | NaiveDiagonal _ _ => "ff_naivediag_"
  | DiagonalKronecker _ _ | DiagonalMulti _ _ _ => "ff_diag_kron_"
  | FCDiagonal _ _ _ => "ff_diagfc_" | ScaleShift _ _ _ _ _ _ => "ff_scaleshift_"
  | ConvDiagonal _ _ _ => "ff_convdiag_" | FCKronecker _ _ => "ff_fckron_"
  | ConvInput _ _ | ConvInputMulti _ _ _ => "ff_convinkron_"
  | ConvInputSUA _ _ _ => "ff_convinsuakron_"
  | ConvOutput _ | ConvOutputMulti _ _ => "ff_convoutkron_"
  | FCMulti _ _ _ _ => "ff_fc_multi_"
  end.
Definition batch_group (b : param) : list (list nat) :=
  match b with PObj (OTensor t) => [[t]] | _ => [] end.
Definition batch_arg (b : param) : list string :=
  match b with PInt n => [str_int n] | _ => [] end.
Definition groups (f : factor) : list (list nat) :=
  match f with
  | NaiveFull g b => [together (concat g)] ++ batch_group b
  | NaiveDiagonal g b => [together g] ++ batch_group b
  | _ => sh_data (shown_of f)
  end.
Definition settings (w : world) (f : factor) : list string :=
  match f with
  | NaiveFull _ b | NaiveDiagonal _ b => batch_arg b
  | ScaleShift full _ _ bs bh h =>
      [ints_str bs; arg_str w (aints bh); str_bool h; if full then "full" else "diagonal"]
  | _ => map (arg_str w) (sh_args (shown_of f))
  end.

Lemma finish w ps ss pre :
  mapm (name_part w) ps = Ok ss -> ss <> [] ->
  exists s, (do s <- scope_string_from_params w ps ; Ok (pre ++ s)%string) = Ok s
    /\ (s ++ "_")%string = (pre ++ fields ss)%string.
Proof.
  intros E N. unfold scope_string_from_params. rewrite E. cbn [bind].
  eexists; split; [reflexivity|]. rewrite sapp_assoc, concat_fields by auto. reflexivity.
Qed.

Lemma objs_fields w os rest :
  (forall g, In g (map tensors_of os) -> g <> []) ->
  fields (map (obj_text w) os ++ rest) = (text w (all_toks (map tensors_of os)) ++ fields rest)%string.
Proof. intros N. rewrite fields_app, fields_objs by auto. reflexivity. Qed.

Lemma var_scope_form w f : proper f ->
  exists s, var_scope w f = Ok s /\
    (s ++ "_")%string = (pre_of f ++ text w (all_toks (groups f)) ++ fields (settings w f))%string.
Proof.
  intros (NE & NG & P).
  assert (M : forall os (rest : list string), map tensors_of os <> [] ->
              map (obj_text w) os ++ rest <> []) by (intros [|o os] rest; cbn; congruence).
  assert (Z : forall s, (s ++ "")%string = s) by apply sapp_nil.
  assert (OBJ : forall pre os, map tensors_of os <> [] ->
     (forall g, In g (map tensors_of os) -> g <> []) ->
     exists s, (do s <- scope_string_from_params w (pobjs os) ; Ok (pre ++ s)%string) = Ok s /\
       (s ++ "_")%string = (pre ++ text w (all_toks (map tensors_of os)) ++ "")%string).
  { intros pre os A B. destruct (finish w (pobjs os) _ pre (name_objs w os)) as (s & E & F).
    - specialize (M os [] A). rewrite app_nil_r in M. exact M.
    - exists s. split; auto. rewrite F, Z, fields_objs by auto. reflexivity. }
  assert (OBJA : forall pre os ps ss, map tensors_of os <> [] ->
     (forall g, In g (map tensors_of os) -> g <> []) -> mapm (name_part w) ps = Ok ss ->
     exists s, (do s <- scope_string_from_params w (pobjs os ++ ps) ; Ok (pre ++ s)%string) = Ok s /\
       (s ++ "_")%string = (pre ++ text w (all_toks (map tensors_of os)) ++ fields ss)%string).
  { intros pre os ps ss A B C.
    destruct (finish w (pobjs os ++ ps) (map (obj_text w) os ++ ss) pre) as (s & E & F).
    - rewrite mapm_app, name_objs, C. reflexivity.
    - apply M; auto.
    - exists s. split; auto. rewrite F, objs_fields by auto. reflexivity. }
  assert (NAIVE : forall pre first b ts, plain_batch b -> ts <> [] ->
     name_part w first = Ok (String.concat "__" (map (word w) ts)) ->
     exists s, (do s <- scope_string_from_params w [first; b] ; Ok (pre ++ s)%string) = Ok s /\
       (s ++ "_")%string = (pre ++ text w (all_toks ([ts] ++ batch_group b)) ++ fields (batch_arg b))%string).
  { intros pre first b ts B T E.
    destruct b as [|n| | |[t|ts']|]; try destruct B.
    - destruct (finish w [first; PInt n] [String.concat "__" (map (word w) ts); str_int n] pre)
        as (s & Es & F); [cbn [mapm]; rewrite E; reflexivity|congruence|].
      exists s; split; auto. rewrite F. unfold all_toks. cbn [batch_group batch_arg app map concat fields].
      rewrite !app_nil_r, <- join_text, !sapp_assoc by auto. reflexivity.
    - destruct (finish w [first; PObj (OTensor t)] [String.concat "__" (map (word w) ts); word w t] pre)
        as (s & Es & F); [cbn [mapm]; rewrite E; reflexivity|congruence|].
      exists s; split; auto. rewrite F. unfold all_toks. cbn [batch_group batch_arg app map concat fields].
      rewrite text_app, <- join_text by auto. cbn [toks app text]. rewrite !sapp_assoc, ?Z.
      reflexivity. }
  destruct f; cbn [var_scope groups settings sh_data shown_of pre_of sh_args map] in *.
  - destruct P as (P1 & P2 & P3 & P4). apply NAIVE; auto.
    { apply NG; simpl; auto. } apply name_tuples; auto.
  - destruct P as (P1 & P3). apply NAIVE; auto.
    { apply NG; simpl; auto. } apply name_tuple; auto. apply NG; simpl; auto.
  - apply OBJ; auto.
  - apply OBJ; auto.
  - unfold pobjs in *. rewrite <- map_app. apply OBJ; auto.
  - destruct P as (P1 & P2 & P3).
    assert (G : grads <> []) by (intros ->; apply (NG []); simpl; auto).
    assert (I1 : together inputs <> []) by (apply NG; simpl; auto).
    assert (I2 : together (concat grads) <> []) by (apply NG; simpl; auto).
    destruct (finish w [PSeq (pobjs inputs); PSeq (pobjss grads); pints bscale; points bshift;
         PBool has_shift; PStr (if full then "full" else "diagonal")]
      [String.concat "__" (map (word w) (together inputs));
       String.concat "__" (map (word w) (together (concat grads)));
       ints_str bscale; arg_str w (aints bshift); str_bool has_shift;
       if full then "full" else "diagonal"] "ff_scaleshift_") as (s & E & F).
    + cbn [mapm]. rewrite (name_tuple w inputs), (name_tuples w grads), name_ints, name_oints by auto. reflexivity.
    + congruence.
    + exists s; split; auto. rewrite F. unfold all_toks. cbn [map concat].
      rewrite app_nil_r, text_app, <- !join_text by auto.
      cbn [fields]. rewrite !sapp_assoc. reflexivity.
  - unfold pobjs in *. rewrite <- map_app. apply OBJ; auto.
  - apply OBJA; auto.
  - apply OBJA; auto. cbn [mapm]. rewrite name_ints, !name_oints, name_ostr, name_otensor. reflexivity.
  - apply OBJA; auto. cbn [mapm]. rewrite name_ints, !name_oints, name_ostr, name_otensor. reflexivity.
  - apply OBJA; auto. cbn [mapm]. rewrite name_ints. reflexivity.
  - apply OBJ; auto.
  - apply OBJ; auto.
  - apply OBJA; auto. cbn [mapm]. rewrite name_ouses. reflexivity.
Qed.

(* ------------------------------------------------------------------------ *)
(** * The settings read back *)

Lemma fields_left a b x y :
  Forall (free_of "_") a -> Forall (free_of "_") b -> length a = length b ->
  (fields a ++ x = fields b ++ y)%string -> a = b /\ x = y.
Proof.
  intros A. revert b. induction A as [|s a Fs A IH]; intros b B L H; destruct b as [|s' b];
    try discriminate.
  - auto.
  - inversion B as [|? ? Fs' B']; subst. cbn [fields] in H. rewrite !sapp_assoc in H.
    cbn [String.append] in H. apply split_left in H; auto. destruct H as [-> H].
    destruct (IH b) as [-> ->]; auto.
Qed.

Definition ends (s : string) : Prop := exists r, s = (r ++ "_")%string.

Lemma text_ends w l : l <> [] -> ends (text w l).
Proof.
  induction l as [|[t two] l IH]; [congruence|]. intros _. cbn [text].
  destruct l as [|p l].
  - destruct two; cbn [text]; rewrite !sapp_nil.
    + exists (word w t ++ "_")%string. rewrite sapp_assoc. reflexivity.
    + exists (word w t). reflexivity.
  - destruct IH as (r & ->); [congruence|].
    exists (word w t ++ "_" ++ (if two then "_" else "") ++ r)%string.
    rewrite !sapp_assoc. reflexivity.
Qed.

Lemma fields_right a : forall b x y,
  Forall (free_of "_") a -> Forall (free_of "_") b -> length a = length b -> ends x -> ends y ->
  (x ++ fields a = y ++ fields b)%string -> x = y /\ a = b.
Proof.
  induction a as [|s a IH] using rev_ind; intros b x y A B L X Y H.
  - destruct b; [|discriminate]. cbn [fields] in H. rewrite !sapp_nil in H. auto.
  - destruct b as [|s' b _] using rev_ind; [rewrite app_length in L; simpl in L; lia|].
    rewrite !app_length in L. simpl in L.
    apply Forall_app in A as [A As]. apply Forall_app in B as [B Bs].
    apply Forall_inv in As. apply Forall_inv in Bs.
    rewrite !fields_app in H. cbn [fields] in H.
    assert (EN : forall z l, ends z -> ends (z ++ fields l)%string).
    { intros z l (r & ->). induction l as [|q l IHl] using rev_ind.
      - exists r. cbn [fields]. rewrite sapp_nil. reflexivity.
      - destruct IHl as (r' & E). exists (r' ++ "_" ++ q)%string.
        rewrite fields_app, <- sapp_assoc, E. cbn [fields]. rewrite !sapp_assoc. reflexivity. }
    destruct (EN x a X) as (r & E). destruct (EN y b Y) as (r' & E').
    rewrite <- !(sapp_assoc x), <- !(sapp_assoc y) in H. rewrite E, E' in H.
    assert (K : ((r ++ String "_" s) ++ String "_" "" = (r' ++ String "_" s') ++ String "_" "")%string).
    { rewrite !sapp_assoc in *. cbn [String.append] in *. exact H. }
    apply split_right_end in K; auto. destruct K as [-> ->].
    destruct (IH b x y) as [-> ->]; auto; [lia|]. congruence.
Qed.

Lemma not_digit_under : ~ digit "_". Proof. unfold digit; cbv -[not]; lia. Qed.
Lemma not_digit_slash : ~ digit "/". Proof. unfold digit; cbv -[not]; lia. Qed.
Lemma not_digit_N : ~ digit "N". Proof. unfold digit; cbv -[not]; lia. Qed.

Definition quiet (c : ascii) : Prop := c = "_"%char \/ c = "/"%char.
Lemma quiet_ints c l : quiet c -> free_of c (ints_str l).
Proof.
  intros [->| ->]; apply ints_free; auto using not_digit_under, not_digit_slash; discriminate.
Qed.
Lemma quiet_int c n : quiet c -> free_of c (str_int n).
Proof. apply (quiet_ints c [n]). Qed.
Lemma quiet_bool c b : quiet c -> free_of c (str_bool b).
Proof. intros [->| ->]; destruct b; cbn; repeat split; discriminate. Qed.
Lemma quiet_none c : quiet c -> free_of c "None".
Proof. intros [->| ->]; cbn; repeat split; discriminate. Qed.
Lemma quiet_oints w c l : quiet c -> free_of c (arg_str w (aints l)).
Proof. intros Q. destruct l; [apply quiet_ints|apply quiet_none]; auto. Qed.
Lemma quiet_ouses w c u : quiet c -> free_of c (arg_str w (auses u)).
Proof. intros Q. destruct u; [apply quiet_int|apply quiet_none]; auto. Qed.
Lemma quiet_full c (b : bool) : quiet c -> free_of c (if b then "full" else "diagonal").
Proof. intros [->| ->]; destruct b; cbn; repeat split; discriminate. Qed.
Lemma quiet_str c s : quiet c -> plain_string s -> free_of c s.
Proof. intros [->| ->] (A & B & _); auto. Qed.
Lemma quiet_ostr w c s : quiet c -> match s with None => True | Some s => plain_string s end ->
  free_of c (arg_str w (astr s)).
Proof. intros Q. destruct s; [apply quiet_str|intros _; apply quiet_none]; auto. Qed.

Lemma bool_str_inj a b : str_bool a = str_bool b -> a = b.
Proof. destruct a, b; cbn; congruence. Qed.
Lemma ints_not_none l : ints_str l <> "None".
Proof.
  intros E. pose proof (ints_free "N" l not_digit_N) as F. rewrite E in F. cbn in F.
  destruct F as [F _]; [discriminate|congruence].
Qed.
Lemma oints_inj w a b : arg_str w (aints a) = arg_str w (aints b) -> a = b.
Proof.
  destruct a, b; cbn; intros H; auto.
  - f_equal. apply ints_inj; auto.
  - exfalso. exact (ints_not_none _ H).
  - exfalso. exact (ints_not_none _ (eq_sym H)).
Qed.
Lemma ouses_inj w a b : arg_str w (auses a) = arg_str w (auses b) -> a = b.
Proof.
  destruct a as [n|], b as [m|]; cbn; intros H; auto.
  - f_equal. apply int_inj; auto.
  - exfalso. exact (ints_not_none [n] H).
  - exfalso. exact (ints_not_none [m] (eq_sym H)).
Qed.
Lemma ostr_inj w a b :
  match a with None => True | Some s => plain_string s end ->
  match b with None => True | Some s => plain_string s end ->
  arg_str w (astr a) = arg_str w (astr b) -> a = b.
Proof.
  unfold plain_string. destruct a, b; cbn; intros A B H; auto.
  - congruence.
  - exfalso. tauto.
  - exfalso. symmetry in H. tauto.
Qed.
Lemma otensor_inj w ts a b : tell_apart w ts ->
  incl (arg_tensors (atensor a)) ts -> incl (arg_tensors (atensor b)) ts ->
  arg_str w (atensor a) = arg_str w (atensor b) -> a = b.
Proof.
  intros [T1 T2]. destruct a as [t|], b as [u|]; cbn; intros A B H; auto.
  - f_equal. apply T2; [apply A; simpl; auto|apply B; simpl; auto|].
    exists "". rewrite H, sapp_nil. reflexivity.
  - exfalso. destruct (T1 t) as (_ & _ & N); auto. apply A; simpl; auto.
  - exfalso. destruct (T1 u) as (_ & _ & N); auto. apply B; simpl; auto.
Qed.

(* ------------------------------------------------------------------------ *)
(** * Reading a whole name back *)

Lemma stop_int n : stop (fields [str_int n]).
Proof.
  destruct (int_start n) as (c & s & E & D). cbn [fields]. rewrite E. cbn. split.
  - intros L. exact (digit_not_letter c D L).
  - intros ->. exact (not_digit_under D).
Qed.
Lemma stop_ints l rest : l <> [] -> stop (fields (ints_str l :: rest)).
Proof.
  intros N. destruct (ints_start l N) as (c & s & E & D). cbn [fields]. rewrite E. cbn. split.
  - intros L. exact (digit_not_letter c D L).
  - intros ->. exact (not_digit_under D).
Qed.

Lemma groups_nonempty f g : proper f -> In g (groups f) -> g <> [].
Proof.
  intros (_ & NG & P) I.
  destruct f; cbn [groups sh_data shown_of] in *; try (exact (NG _ I));
    apply in_app_or in I as [I|I]; try (exact (NG _ I));
    destruct batch as [| | | |[t|]|]; cbn in I; try tauto; destruct I as [<-|[]]; congruence.
Qed.

Lemma groups_incl f ts : incl (shown_tensors f) ts -> incl (concat (groups f)) ts.
Proof.
  intros I x X. apply I. unfold shown_tensors. apply in_or_app.
  destruct f; cbn [groups sh_data sh_args shown_of] in *; auto;
    rewrite concat_app in X; apply in_app_or in X as [X|X]; auto; right;
    destruct batch as [| | | |[t|]|]; cbn in *; tauto.
Qed.

Definition base_data (w : world) ts (gs hs : list (list nat)) (r r' : string) :=
  (forall g, In g gs -> g <> []) -> (forall g, In g hs -> g <> []) ->
  incl (concat gs) ts -> incl (concat hs) ts -> stop r -> stop r' ->
  (text w (all_toks gs) ++ r = text w (all_toks hs) ++ r')%string -> gs = hs /\ r = r'.
Lemma read_data w ts gs hs r r' : tell_apart w ts -> base_data w ts gs hs r r'.
Proof.
  intros T G H I J S S' E. apply (text_inj w ts) in E; auto; rewrite ?all_toks_fst; auto.
  destruct E as [E ->]. split; auto. apply all_toks_inj; auto.
Qed.

Lemma all_toks_nonempty gs : gs <> [] -> (forall g, In g gs -> g <> []) -> all_toks gs <> [].
Proof.
  destruct gs as [|[|t [|u g]] gs]; unfold all_toks; cbn; intros N G; try congruence.
  exfalso. apply (G []); auto.
Qed.

Lemma read_settings w ts gs hs a b : tell_apart w ts ->
  (forall g, In g gs -> g <> []) -> (forall g, In g hs -> g <> []) -> gs <> [] -> hs <> [] ->
  incl (concat gs) ts -> incl (concat hs) ts ->
  Forall (free_of "_") a -> Forall (free_of "_") b -> length a = length b ->
  (text w (all_toks gs) ++ fields a = text w (all_toks hs) ++ fields b)%string -> gs = hs /\ a = b.
Proof.
  intros T G H NG NH I J A B L E.
  apply fields_right in E; auto; try (apply text_ends, all_toks_nonempty; auto).
  destruct E as [E ->]. split; auto.
  apply (f_equal (fun s => s ++ "")%string) in E.
  apply (read_data w ts) in E; auto; try exact I; cbn; tauto.
Qed.

Lemma naive_inj w ts pre g g' b b' : tell_apart w ts -> g <> [] -> g' <> [] ->
  plain_batch b -> plain_batch b' ->
  incl (concat ([g] ++ batch_group b)) ts -> incl (concat ([g'] ++ batch_group b')) ts ->
  (pre ++ text w (all_toks ([g] ++ batch_group b)) ++ fields (batch_arg b)
   = pre ++ text w (all_toks ([g'] ++ batch_group b')) ++ fields (batch_arg b'))%string ->
  g = g' /\ abatch b = abatch b'.
Proof.
  intros T N N' B B' I I' E. apply sapp_inj in E.
  assert (S : forall b, plain_batch b -> stop (fields (batch_arg b))).
  { intros c C. destruct c as [|n| | |[t|]|]; try destruct C; [apply stop_int|exact Logic.I]. }
  apply (read_data w ts) in E; auto.
  - destruct E as [E F]. cbn [app] in E. injection E as <- E. split; auto.
    destruct b as [|n| | |[t|]|], b' as [|m| | |[u|]|]; cbn in *; try tauto; try congruence.
    apply (f_equal (fun s => s ++ "")%string) in F. rewrite !sapp_assoc in F.
    cbn [String.append] in F. apply split_left in F; try (apply quiet_int; left; auto).
    destruct F as [F _]. apply int_inj in F. congruence.
  - intros x [<-|X]; auto. destruct b as [| | | |[t|]|]; cbn in X; try tauto. destruct X as [<-|[]]. congruence.
  - intros x [<-|X]; auto. destruct b' as [| | | |[t|]|]; cbn in X; try tauto. destruct X as [<-|[]]. congruence.
Qed.

Lemma plain_conv_settings w cv : plain_conv cv ->
  Forall (free_of "_") (map (arg_str w)
    [AInts (cv_filter cv); aints (cv_strides cv); AStr (cv_padding cv); aints (cv_dilation cv);
     astr (cv_format cv); ABool (cv_bias cv)]).
Proof.
  assert (Q : quiet "_") by (left; auto).
  intros (_ & P & F). cbn [map]. repeat constructor.
  - apply quiet_ints; auto.
  - apply quiet_oints; auto.
  - apply quiet_str; auto.
  - apply quiet_oints; auto.
  - apply quiet_ostr; auto.
  - apply quiet_bool; auto.
Qed.

Lemma conv_inj w ts gs hs cv cv' : tell_apart w ts ->
  (forall g, In g gs -> g <> []) -> (forall g, In g hs -> g <> []) ->
  incl (concat gs) ts -> incl (concat hs) ts ->
  incl (arg_tensors (atensor (cv_mask cv))) ts -> incl (arg_tensors (atensor (cv_mask cv'))) ts ->
  plain_conv cv -> plain_conv cv' ->
  (text w (all_toks gs) ++ fields (map (arg_str w) (shown_conv cv))
   = text w (all_toks hs) ++ fields (map (arg_str w) (shown_conv cv')))%string ->
  gs = hs /\ shown_conv cv = shown_conv cv'.
Proof.
  intros T G H I J M M' P P' E.
  apply (read_data w ts) in E; auto; try (apply stop_ints; apply P || apply P').
  destruct E as [E F]. split; auto.
  change (shown_conv cv) with ([AInts (cv_filter cv); aints (cv_strides cv); AStr (cv_padding cv);
    aints (cv_dilation cv); astr (cv_format cv); ABool (cv_bias cv)] ++ [atensor (cv_mask cv)]) in F.
  change (shown_conv cv') with ([AInts (cv_filter cv'); aints (cv_strides cv'); AStr (cv_padding cv');
    aints (cv_dilation cv'); astr (cv_format cv'); ABool (cv_bias cv')] ++ [atensor (cv_mask cv')]) in F.
  rewrite !map_app, !fields_app in F.
  apply fields_left in F; try apply plain_conv_settings; auto.
  destruct F as [F K]. cbn [map fields] in K, F. injection F as F1 F2 F3 F4 F5 F6.
  rewrite <- !sapp_assoc in K. apply sapp_inj_r in K. apply sapp_inj_r in K.
  apply ints_inj in F1. apply oints_inj in F2. apply oints_inj in F4.
  apply ostr_inj in F5; try apply P; try apply P'. apply bool_str_inj in F6.
  apply (otensor_inj w ts) in K; auto.
  unfold shown_conv. congruence.
Qed.

Theorem scope_shows w ts f g s : tell_apart w ts -> proper f -> proper g ->
  incl (shown_tensors f) ts -> incl (shown_tensors g) ts ->
  var_scope w f = Ok s -> var_scope w g = Ok s -> shown_of f = shown_of g.
Proof.
  intros T P Q I J F G.
  destruct (var_scope_form w f P) as (s1 & F1 & F2). rewrite F in F1. injection F1 as <-.
  destruct (var_scope_form w g Q) as (s2 & G1 & G2). rewrite G in G1. injection G1 as <-.
  rewrite F2 in G2. clear F G F2 s.
  pose proof (groups_nonempty f) as NF. pose proof (groups_nonempty g) as NG.
  assert (NF' := fun h H => NF h P H). assert (NG' := fun h H => NG h Q H). clear NF NG.
  pose proof (groups_incl f ts I) as If. pose proof (groups_incl g ts J) as Ig.
  destruct P as (P1 & P2 & P3), Q as (Q1 & Q2 & Q3).
  assert (U : quiet "_") by (left; auto).
  assert (RS : forall pre gs hs a b,
    (forall x, In x gs -> x <> []) -> (forall x, In x hs -> x <> []) -> gs <> [] -> hs <> [] ->
    incl (concat gs) ts -> incl (concat hs) ts ->
    Forall (free_of "_") a -> Forall (free_of "_") b -> length a = length b ->
    (pre ++ text w (all_toks gs) ++ fields a = pre ++ text w (all_toks hs) ++ fields b)%string ->
    gs = hs /\ a = b).
  { intros. eapply read_settings; eauto. eapply sapp_inj; eauto. }
  assert (RC : forall pre gs hs cv cv',
    (forall x, In x gs -> x <> []) -> (forall x, In x hs -> x <> []) ->
    incl (concat gs) ts -> incl (concat hs) ts ->
    incl (concat gs ++ concat (map arg_tensors (shown_conv cv))) ts ->
    incl (concat hs ++ concat (map arg_tensors (shown_conv cv'))) ts ->
    plain_conv cv -> plain_conv cv' ->
    (pre ++ text w (all_toks gs) ++ fields (map (arg_str w) (shown_conv cv))
     = pre ++ text w (all_toks hs) ++ fields (map (arg_str w) (shown_conv cv')))%string ->
    gs = hs /\ shown_conv cv = shown_conv cv').
  { intros pre gs hs cv cv' A B C D K L M N E.
    apply (conv_inj w ts); auto.
    - intros x X. apply K, in_or_app. right. unfold shown_conv. cbn [map].
      apply in_concat. exists (arg_tensors (atensor (cv_mask cv))). simpl. tauto.
    - intros x X. apply L, in_or_app. right. unfold shown_conv. cbn [map].
      apply in_concat. exists (arg_tensors (atensor (cv_mask cv'))). simpl. tauto.
    - eapply sapp_inj; eauto. }
  unfold shown_tensors in I, J.
  destruct f, g; cbn [pre_of groups settings sh_data sh_args shown_of map] in *;
    try (exfalso; cbn [String.append] in G2; discriminate G2).
  - destruct (naive_inj w ts _ _ _ _ _ T (P2 _ (or_introl eq_refl)) (Q2 _ (or_introl eq_refl))
      (proj1 (proj2 (proj2 P3))) (proj1 (proj2 (proj2 Q3))) If Ig G2) as [-> ->]; auto.
  - destruct (naive_inj w ts _ _ _ _ _ T (P2 _ (or_introl eq_refl)) (Q2 _ (or_introl eq_refl))
      (proj2 P3) (proj2 Q3) If Ig G2) as [-> ->]; auto.
  - apply RS in G2; auto. destruct G2 as [-> _]; auto.
  - apply RS in G2; auto. destruct G2 as [-> _]; auto.
  - apply RS in G2; auto. destruct G2 as [-> _]; auto.
  - apply RS in G2; auto. destruct G2 as [-> _]; auto.
  - apply RS in G2; auto. destruct G2 as [-> _]; auto.
  - apply RS in G2; auto.
    + destruct G2 as [E F]. injection E as -> ->. injection F as F1 F2 F3 F4.
      apply ints_inj in F1. apply (oints_inj w) in F2. apply bool_str_inj in F3.
      assert (full = full0) by (destruct full, full0; auto; discriminate). congruence.
    + repeat constructor; auto using quiet_ints, quiet_oints, quiet_bool, quiet_full.
    + repeat constructor; auto using quiet_ints, quiet_oints, quiet_bool, quiet_full.
  - apply RS in G2; auto. destruct G2 as [-> _]; auto.
  - apply RS in G2; auto.
    + destruct G2 as [-> F]. injection F as F1. apply bool_str_inj in F1. congruence.
    + repeat constructor. apply quiet_bool; auto.
    + repeat constructor. apply quiet_bool; auto.
  - apply RC in G2; auto. destruct G2 as [-> ->]; auto.
  - apply RC in G2; auto. destruct G2 as [-> ->]; auto.
  - apply RC in G2; auto. destruct G2 as [-> ->]; auto.
  - apply RC in G2; auto. destruct G2 as [-> ->]; auto.
  - apply RS in G2; auto.
    + destruct G2 as [-> F]. injection F as F1 F2. apply ints_inj in F1. apply bool_str_inj in F2. congruence.
    + repeat constructor; [apply quiet_ints|apply quiet_bool]; auto.
    + repeat constructor; [apply quiet_ints|apply quiet_bool]; auto.
  - apply RS in G2; auto. destruct G2 as [-> _]; auto.
  - apply RS in G2; auto. destruct G2 as [-> _]; auto.
  - apply RS in G2; auto. destruct G2 as [-> _]; auto.
  - apply RS in G2; auto. destruct G2 as [-> _]; auto.
  - apply RS in G2; auto.
    + destruct G2 as [-> F]. injection F as F1 F2. apply ouses_inj in F1. apply bool_str_inj in F2. congruence.
    + repeat constructor; [apply quiet_ouses|apply quiet_bool]; auto.
    + repeat constructor; [apply quiet_ouses|apply quiet_bool]; auto.
Qed.

(** A name contains no slash. *)
Lemma text_slash w l ts : tell_apart w ts -> incl (map fst l) ts -> free_of "/" (text w l).
Proof.
  intros [T _]. induction l as [|[t two] l IH]; intros I; [exact Logic.I|].
  cbn [text]. rewrite !free_app. repeat split.
  - apply T, I. simpl; auto.
  - discriminate.
  - destruct two; cbn; repeat split; discriminate.
  - apply IH. intros x X. apply I. simpl; auto.
Qed.
Lemma fields_slash l : Forall (free_of "/") l -> free_of "/" (fields l).
Proof.
  induction 1; [exact Logic.I|]. cbn [fields]. rewrite !free_app. repeat split; auto. discriminate.
Qed.
Lemma conv_slash w cv ts : tell_apart w ts -> plain_conv cv ->
  incl (concat (map arg_tensors (shown_conv cv))) ts ->
  Forall (free_of "/") (map (arg_str w) (shown_conv cv)).
Proof.
  assert (Q : quiet "/") by (right; auto).
  intros [T _] (_ & P & F) I. unfold shown_conv. cbn [map].
  repeat apply Forall_cons; try apply Forall_nil;
    [apply quiet_ints|apply quiet_oints|apply quiet_str|apply quiet_oints|apply quiet_ostr
    |apply quiet_bool|]; auto.
  destruct (cv_mask cv) as [t|] eqn:E; [|apply quiet_none; auto].
  apply T. apply I. unfold shown_conv. rewrite E. cbn [map].
  apply in_concat. exists [t]. simpl. tauto.
Qed.

Theorem scope_no_slash w ts f s : tell_apart w ts -> proper f ->
  incl (shown_tensors f) ts -> var_scope w f = Ok s -> free_of "/" s.
Proof.
  intros T P I F. destruct (var_scope_form w f P) as (s1 & F1 & F2). rewrite F in F1. injection F1 as <-.
  assert (K : free_of "/" (s ++ "_")%string); [|apply free_app in K; tauto].
  assert (Q : quiet "/") by (right; auto).
  rewrite F2, !free_app. repeat split.
  - destruct f; cbn; repeat split; discriminate.
  - apply (text_slash w _ ts); auto. rewrite all_toks_fst. apply groups_incl; auto.
  - apply fields_slash. destruct P as (_ & _ & P). unfold shown_tensors in I.
    assert (B : forall b, Forall (free_of "/") (batch_arg b))
      by (intros []; cbn; repeat constructor; apply quiet_int; auto).
    assert (I2 : incl (concat (map arg_tensors (sh_args (shown_of f)))) ts)
      by (intros x X; apply I, in_or_app; auto).
    destruct f; cbn [settings sh_args shown_of map] in *; auto; try apply B;
      try (eapply conv_slash; eauto; fail);
      repeat apply Forall_cons; try apply Forall_nil; cbn [arg_str];
      first [apply quiet_ints|apply quiet_oints|apply quiet_bool|apply quiet_full|apply quiet_ouses];
      auto.
Qed.
