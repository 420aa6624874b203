(** The parser as a whole: construction, declarations, help. *)
From Coq Require Import String Bool Ascii NArith Lia Arith Permutation List.
From Verif Require Import Lib Outcome StreamModel StreamSpec StreamProofs JsonModel CliModel CliSpec CliProofs.
Import ListNotations.
Open Scope char_scope.
Open Scope list_scope.

Section P.
Variable T : Type.
Variable tshow : T -> text.
Variable tstore : text -> T -> T.
Notation param := (param T).
Notation parser := (parser T).
Notation registered := (registered T tstore).
Notation process_param := (process_param T tstore).
Notation declare := (declare T tstore).
Notation settled := (settled T tstore).

(** the parser built from arguments *)
Definition base (asked : bool) (args : list text) : parser :=
  let m := puts args empty_maps in
  Parser T m (registered m (help_param T asked)) (registered m (stop_param T)) [] [] false [].

Lemma find_response_none argv : Forall (fun a => is_response a = false) argv -> List.find is_response argv = None.
Proof. induction 1 as [|a argv E _ IH]; cbn; auto. rewrite E. auto. Qed.
Lemma construct_args files argv : Forall plain_arg argv -> Forall (fun a => is_response a = false) argv ->
  construct T tstore files argv = Ok (base false argv).
Proof.
  intros Hp Hr. unfold construct. rewrite find_response_none; auto. cbn [rbind].
  rewrite (read_maps_say _ argv).
  - cbn. auto.
  - apply (join_says [] argv); auto. constructor.
Qed.
Lemma response_put m a : is_response a = true -> put m a = m.
Proof.
  destruct a as [|c a]; [discriminate|]. unfold is_response, put. cbn.
  destruct (ascii_dec c dash) as [->|N]; auto. cbn. discriminate.
Qed.
Lemma puts_filter args m : puts (filter (fun a => negb (is_response a)) args) m = puts args m.
Proof.
  revert m. induction args as [|a args IH]; intros m; auto. cbn [filter].
  change (puts (a :: args) m) with (puts args (put m a)).
  destruct (is_response a) eqn:E; cbn [negb].
  - rewrite (response_put m a); auto.
  - apply (IH (put m a)).
Qed.
Lemma construct_file files argv a l fargs : Forall plain_arg argv ->
  List.find is_response argv = Some a -> files (tl a) = Some l -> file_says true l fargs ->
  construct T tstore files argv = Ok (base false (fargs ++ filter (fun a => negb (is_response a)) argv)).
Proof.
  intros Hp Hf Hl Hs. unfold construct. rewrite Hf, Hl, (read_maps_say _ _ _ Hs). cbn [rbind].
  rewrite (read_maps_say _ argv).
  - cbn. unfold base. rewrite puts_app, puts_filter. auto.
  - apply (join_says [] argv); auto. constructor.
Qed.

(** *** cutting arguments at white space *)
Lemma splits_says b l ws rest args : splits l ws -> blank b -> Forall plain_arg ws -> clean_end rest ->
  (forall b', blank b' -> file_says true (b' ++ rest) args) ->
  file_says true (b ++ l ++ rest) (ws ++ args).
Proof.
  intros H. revert b. induction H as [b0 Hb0|b0 w r ws Hb0 Hw Hc _ IH]; intros b Hb Hp Hr K.
  - rewrite app_assoc. apply K. apply Forall_app. auto.
  - inversion Hp as [|? ? Hpw Hpws]; subst. rewrite <- !app_assoc. rewrite app_assoc. cbn [app].
    apply fs_arg; auto.
    + apply Forall_app. auto.
    + destruct r; cbn in *; auto.
    + apply (IH []); auto. constructor.
Qed.
Lemma construct_split files argv parts : Forall2 splits argv parts -> Forall plain_arg (concat parts) ->
  Forall (fun a => is_response a = false) argv -> Forall (fun a => is_response a = false) (concat parts) ->
  construct T tstore files argv = construct T tstore files (concat parts).
Proof.
  intros H2 Hp Hr Hr'. rewrite (construct_args files (concat parts)); auto.
  unfold construct. rewrite find_response_none; auto. cbn [rbind].
  rewrite (read_maps_say _ (concat parts)); [cbn; auto|].
  clear Hr Hr'. assert (forall b, blank b -> file_says true (b ++ join_args argv) (concat parts)) as K.
  { induction H2 as [|l ws argv parts Hs _ IH]; intros b Hb; cbn [join_args flat_map concat].
    - rewrite app_nil_r. apply fs_end; auto.
    - cbn [concat] in Hp. apply Forall_app in Hp as [Hp1 Hp2]. rewrite <- app_assoc. apply splits_says; auto.
      + cbn. auto.
      + intros b' Hb'. cbn [app]. change (nl :: flat_map (fun a => a ++ [nl]) argv) with ([nl] ++ join_args argv).
        rewrite app_assoc. apply IH; auto. apply Forall_app. split; auto. }
  apply (K []). constructor.
Qed.

(** *** declarations *)
Definition prefixed (pre : text) (q : param) : param := Param T (pre ++ lname T q) (sname T q) (required T q) (value T q) (descr T q).
Lemma insert_perm sec (q : param) l : Permutation (insert T sec q l) ((sec, q) :: l).
Proof.
  induction l as [|[s x] l IH]; cbn; auto. destruct (text_ltb sec s); auto.
  rewrite IH. apply perm_swap.
Qed.
Lemma process_spec p q sec :
  let p' := process_param p q sec in
  let q1 := prefixed (prefix T p) q in
  given T p' = given T p /\ help T p' = help T p /\ stop T p' = stop T p /\ prefix T p' = prefix T p /\
  others T p' = insert T (prefix T p ++ sec) (registered (given T p) q1) (others T p) /\
  messages T p' = messages T p ++ missing_of T (given T p) q1 /\
  need_message T p' = (need_message T p || nonempty (missing_of T (given T p) q1)).
Proof.
  destruct p as [m h st o ms nm pre], q as [n sn rq v ds]. destruct pre; cbn; repeat split; auto.
Qed.
Lemma declare_spec decls : forall p,
  let p' := declare p decls in
  let qs := map (fun d => prefixed (prefix T p) (fst d)) decls in
  given T p' = given T p /\ help T p' = help T p /\ stop T p' = stop T p /\ prefix T p' = prefix T p /\
  Permutation (others T p') (map (fun d => (prefix T p ++ snd d, registered (given T p) (prefixed (prefix T p) (fst d)))) decls ++ others T p) /\
  messages T p' = messages T p ++ flat_map (missing_of T (given T p)) qs /\
  (need_message T p = nonempty (messages T p) -> need_message T p' = nonempty (messages T p')).
Proof.
  induction decls as [|[q sec] decls IH]; intros p; cbn [map flat_map].
  - cbn. rewrite app_nil_r. repeat split; auto.
  - change (declare p ((q, sec) :: decls)) with (declare (process_param p q sec) decls).
    destruct (process_spec p q sec) as (E1 & E2 & E3 & E4 & E5 & E6 & E7). cbn [fst snd].
    destruct (IH (process_param p q sec)) as (D1 & D2 & D3 & D4 & D5 & D6 & D7).
    rewrite D1, D2, D3, D4, E1, E2, E3, E4 in *. repeat split; auto.
    + rewrite D5, E5, insert_perm. cbn [app]. symmetry. apply Permutation_middle.
    + rewrite D6, E6, <- app_assoc. auto.
    + intros H. apply D7. rewrite E6, E7, H. destruct (messages T p); auto.
Qed.

Lemma registered_settled args pre q : settled args pre q (registered (puts args empty_maps) (prefixed pre q)).
Proof.
  exists (get_value T (puts args empty_maps) (prefixed pre q)). split.
  - apply (get_value_chosen T args (prefixed pre q)).
  - unfold CliModel.registered. destruct (get_value T _ _); auto.
Qed.
Lemma declared_settled asked argv pre decls :
  let p := declare (set_prefix T (base asked argv) pre) decls in
  exists qs, Permutation (others T p) (combine (map (fun d => pre ++ snd d) decls) qs) /\
             Forall2 (fun d q' => settled argv pre (fst d) q') decls qs.
Proof.
  cbn. destruct (declare_spec decls (set_prefix T (base asked argv) pre)) as (_ & _ & _ & _ & P & _).
  cbn in P. exists (map (fun d => registered (puts argv empty_maps) (prefixed pre (fst d))) decls). split.
  - rewrite P, app_nil_r. clear P. induction decls as [|d decls IH]; cbn; auto.
  - clear P. induction decls as [|d decls IH]; cbn; constructor; auto. apply registered_settled.
Qed.

(** *** help *)
Lemma switched_registered args n s b d dflt :
  switched n s args dflt b <-> truth T (value T (registered (puts args empty_maps) (Param T n s false (VBool T dflt) d))) = b.
Proof.
  pose (q := Param T n s false (VBool T dflt) d). fold q.
  assert (truth T (value T (registered (puts args empty_maps) q)) =
    match get_value T (puts args empty_maps) q with None => dflt | Some [] => true | Some w => bool_of w dflt end) as E.
  { unfold CliModel.registered. destruct (get_value T _ q) as [[|c w]|]; auto. }
  rewrite E. split.
  - intros (o & C & ->). rewrite (get_value_is T args q o C). auto.
  - intros <-. exists (get_value T (puts args empty_maps) q). split; auto. apply (get_value_chosen T args q).
Qed.

Lemma longs_puts args n : (exists v, In (n, v) (longs (puts args empty_maps))) <-> exists a v, In a args /\ gives_long n v a.
Proof.
  induction args as [|a args IH] using rev_ind.
  - cbn. split; intros (x & H); [destruct H|destruct H as (v & [] & _)].
  - rewrite puts_snoc. set (m := puts args empty_maps) in *.
    assert ((exists v, In (n, v) (longs (put m a))) <-> (exists v, gives_long n v a) \/ exists v, In (n, v) (longs m)) as K.
    { destruct (arg_cases a) as [n0 v0 a G P U _|c v0 a _ P _ NL|a P _ NL]; rewrite P; cbn [longs].
      - split.
        + intros (v & [E|H]); [injection E as -> ->; eauto|eauto].
        + intros [[v H]|[v H]]; [apply U in H as [-> ->]; exists v0; left; auto|exists v; right; auto].
      - split; [eauto|]. intros [[v H]|H]; auto. exfalso. eapply NL; eauto.
      - split; [eauto|]. intros [[v H]|H]; auto. exfalso. eapply NL; eauto. }
    rewrite K, IH. split.
    + intros [[v H]|(x & v & Hx & H)]; [exists a, v|exists x, v]; split; auto; apply in_or_app; cbn; auto.
    + intros (x & v & Hx & H). apply in_app_or in Hx as [Hx|[<-|[]]]; eauto.
Qed.
Lemma shorts_puts args c : (exists v, In (c, v) (shorts (puts args empty_maps))) <-> exists a v, In a args /\ gives_short c v a.
Proof.
  induction args as [|a args IH] using rev_ind.
  - cbn. split; intros (x & H); [destruct H|destruct H as (v & [] & _)].
  - rewrite puts_snoc. set (m := puts args empty_maps) in *.
    assert ((exists v, In (c, v) (shorts (put m a))) <-> (exists v, gives_short c v a) \/ exists v, In (c, v) (shorts m)) as K.
    { destruct (arg_cases a) as [n0 v0 a _ P _ NS|c0 v0 a G P U _|a P NS _]; rewrite P; cbn [shorts].
      - split; [eauto|]. intros [[v H]|H]; auto. exfalso. eapply NS; eauto.
      - split.
        + intros (v & [E|H]); [injection E as -> ->; eauto|eauto].
        + intros [[v H]|[v H]]; [apply U in H as [-> ->]; exists v0; left; auto|exists v; right; auto].
      - split; [eauto|]. intros [[v H]|H]; auto. exfalso. eapply NS; eauto. }
    rewrite K, IH. split.
    + intros [[v H]|(x & v & Hx & H)]; [exists a, v|exists x, v]; split; auto; apply in_or_app; cbn; auto.
    + intros (x & v & Hx & H). apply in_app_or in Hx as [Hx|[<-|[]]]; eauto.
Qed.

Lemma nonempty_flat {A B} (f : A -> list B) l : nonempty (flat_map f l) = true <-> exists x, In x l /\ f x <> [].
Proof.
  induction l as [|x l IH]; cbn.
  - split; [discriminate|]. intros (x & [] & _).
  - destruct (f x) as [|y r] eqn:E; cbn.
    + rewrite IH. split; intros (z & H & N); eauto. destruct H as [<-|H]; [congruence|eauto].
    + split; auto. intros _. exists x. split; auto. congruence.
Qed.
Lemma nonempty_app {A} (l r : list A) : nonempty (l ++ r) = nonempty l || nonempty r.
Proof. destruct l; auto. Qed.

Lemma unknown_spec args ps : Forall (fun a => ~ In "000" a) args ->
  (nonempty (unknown_long T ps (puts args empty_maps) ++ unknown_short T ps (puts args empty_maps)) = true <->
   exists a, In a args /\ unknown_option (map (fun q => (lname T q, sname T q)) ps) a).
Proof.
  intros H0. rewrite nonempty_app, orb_true_iff. unfold unknown_long, unknown_short. rewrite !nonempty_flat. split.
  - intros [((n & v) & H & E)|((c & v) & H & E)]; cbn [fst] in E.
    + destruct (proj1 (longs_puts args n)) as (a & w & Ha & G); [eauto|]. exists a. split; auto. left. exists n, w. split; auto.
      intros e He En. apply in_map_iff in He as (q & <- & Hq). cbn in En. subst n. apply E. rewrite (proj2 (existsb_exists _ ps)); auto. exists q. split; auto. apply text_eqb_refl.
    + destruct (proj1 (shorts_puts args c)) as (a & w & Ha & G); [eauto|]. exists a. split; auto. right. exists c, w. split; auto.
      intros e He Hc. apply in_map_iff in He as (q & <- & Hq). cbn in Hc. apply E. rewrite (proj2 (existsb_exists _ ps)); auto. exists q. split; auto.
      unfold short_code. rewrite Hc. destruct (ascii_dec c c); congruence.
  - intros (a & Ha & [(n & v & G & U)|(c & v & G & U)]).
    + left. destruct (proj2 (longs_puts args n)) as (w & Hw); [eauto|]. exists (n, w). split; auto. cbn [fst].
      destruct (existsb _ ps) eqn:E; [|discriminate]. apply existsb_exists in E as (q & Hq & E). apply eqb_eq in E.
      exfalso. apply (U (lname T q, sname T q)); auto. apply in_map_iff. eauto.
    + right. destruct (proj2 (shorts_puts args c)) as (w & Hw); [eauto|]. exists (c, w). split; auto. cbn [fst].
      destruct (existsb _ ps) eqn:E; [|discriminate]. apply existsb_exists in E as (q & Hq & E).
      destruct (ascii_dec c (short_code T q)) as [Ec|]; [|discriminate]. unfold short_code in Ec.
      destruct (sname T q) as [d|] eqn:Ed; [subst; exfalso; apply (U (lname T q, sname T q)); auto; apply in_map_iff; eauto|]. subst c. exfalso.
      rewrite Forall_forall in H0. apply (H0 a Ha). apply gives_short_shape in G as (r & -> & _). right. left. auto.
Qed.
Lemma all_names asked argv pre decls e :
  In e (map (fun q => (lname T q, sname T q)) (all_params T (declare (set_prefix T (base asked argv) pre) decls))) <->
  In e (known_names T pre decls).
Proof.
  destruct (declare_spec decls (set_prefix T (base asked argv) pre)) as (_ & E2 & E3 & _ & E5 & _). cbn in E2, E3, E5.
  unfold all_params, known_names. rewrite E2, E3. cbn [map In].
  assert (forall m q, (lname T (registered m q), sname T (registered m q)) = (lname T q, sname T q)) as R.
  { intros m q. unfold CliModel.registered. destruct (get_value T m q); auto. }
  rewrite !R. cbn [lname sname help_param stop_param].
  assert (In e (map (fun q => (lname T q, sname T q)) (map snd (others T (declare (set_prefix T (base asked argv) pre) decls)))) <->
    In e (map (fun d => (pre ++ lname T (fst d), sname T (fst d))) decls)) as K.
  { rewrite map_map. rewrite app_nil_r in E5.
    assert (Permutation (map (fun x => (lname T (snd x), sname T (snd x))) (others T (declare (set_prefix T (base asked argv) pre) decls)))
      (map (fun d => (pre ++ lname T (fst d), sname T (fst d))) decls)) as P.
    { rewrite E5, map_map. cbn [snd]. erewrite map_ext; [reflexivity|]. intros d. rewrite R. auto. }
    split; apply Permutation_in; auto. symmetry. auto. }
  rewrite K. tauto.
Qed.
Lemma needs_help asked argv pre decls : Forall (fun a => ~ In "000" a) argv ->
  let p := declare (set_prefix T (base asked argv) pre) decls in
  fst (user_needs_help T p) = true <->
  switched (list_ascii_of_string "help") (Some "h") argv asked true \/
  (exists d, In d decls /\ required T (fst d) = true /\ chosen (pre ++ lname T (fst d)) (sname T (fst d)) argv None) \/
  (switched (list_ascii_of_string "stopOnUnknownParam") None argv true true /\
   exists a, In a argv /\ unknown_option (known_names T pre decls) a).
Proof.
  intros H0 p. destruct (declare_spec decls (set_prefix T (base asked argv) pre)) as (E1 & E2 & E3 & _ & _ & E6 & E7).
  fold p in E1, E2, E3, E6, E7. cbn in E1, E2, E3, E6, E7. specialize (E7 eq_refl).
  set (m := puts argv empty_maps) in *.
  assert (switched (list_ascii_of_string "help") (Some "h") argv asked true <-> truth T (value T (help T p)) = true) as Hh.
  { rewrite E2. apply switched_registered. }
  assert (switched (list_ascii_of_string "stopOnUnknownParam") None argv true true <-> truth T (value T (stop T p)) = true) as Hs.
  { rewrite E3. apply switched_registered. }
  assert (nonempty (messages T p) = true <-> exists d, In d decls /\ required T (fst d) = true /\ chosen (pre ++ lname T (fst d)) (sname T (fst d)) argv None) as Hm.
  { rewrite E6, nonempty_flat. split.
    - intros (q & Hq & N). apply in_map_iff in Hq as (d & <- & Hd). exists d. split; auto. unfold missing_of in N. cbn in N.
      destruct (required T (fst d)); [|cbn in N; congruence]. split; auto.
      pose proof (get_value_chosen T argv (prefixed pre (fst d))) as C. unfold is_there in N. fold m in C.
      destruct (get_value T m (prefixed pre (fst d))); [cbn in N; congruence|]. auto.
    - intros (d & Hd & R & C). exists (prefixed pre (fst d)). split; [apply in_map_iff; eauto|].
      unfold missing_of, is_there. cbn. rewrite R. unfold m. rewrite (get_value_is T argv (prefixed pre (fst d)) None C). discriminate. }
  assert (nonempty (unknown_long T (all_params T p) m ++ unknown_short T (all_params T p) m) = true <->
    exists a, In a argv /\ unknown_option (known_names T pre decls) a) as Hu.
  { unfold m. rewrite unknown_spec; auto. unfold unknown_option.
    assert (forall P : text * option ascii -> Prop, (forall e, In e (map (fun q => (lname T q, sname T q)) (all_params T p)) -> P e) <->
      (forall e, In e (known_names T pre decls) -> P e)) as K.
    { intros P. split; intros H e He; apply H; apply (all_names asked argv pre decls); auto. }
    split; intros (a & Ha & [(n & v & G & U)|(c & v & G & U)]); exists a; split; auto;
      [left|right|left|right]; eexists; eexists; split; eauto; apply K; auto. }
  rewrite Hh, <- Hm, Hs, <- Hu. unfold user_needs_help. rewrite E1. fold m.
  destruct (truth T (value T (stop T p))).
  - cbn [fst messages value help]. rewrite E7, !nonempty_app, !orb_true_iff.
    destruct (nonempty (messages T p)), (nonempty (unknown_long T (all_params T p) m)), (nonempty (unknown_short T (all_params T p) m)); cbn; intuition congruence.
  - cbn [fst]. rewrite orb_true_iff. intuition congruence.
Qed.

(** *** a lone dash *)
Lemma tokens_dash b argv rest f m : blank b -> Forall plain_arg argv -> List.length (b ++ join_args argv ++ dash :: nl :: rest) < f ->
  read_tokens f true (Stream (b ++ join_args argv ++ dash :: nl :: rest) false) m = Ok (puts argv m, true).
Proof.
  intros Hb H. revert b Hb f m. induction H as [|a argv Ha _ IH]; intros b Hb f m Hf; (destruct f as [|f]; [lia|]); cbn [read_tokens].
  - cbn [join_args flat_map app]. change (b ++ dash :: nl :: rest) with (b ++ [dash] ++ nl :: rest).
    rewrite tokens_step; [|auto|split; [discriminate|repeat constructor]|cbn; auto].
    cbn [failed]. rewrite processing_other; [auto|]. intros (r & E). discriminate.
  - cbn [join_args flat_map] in *. fold (join_args argv) in *.
    replace (b ++ ((a ++ [nl]) ++ join_args argv) ++ dash :: nl :: rest) with (b ++ a ++ ([nl] ++ join_args argv ++ dash :: nl :: rest)) in *
      by (rewrite <- !app_assoc; auto).
    destruct Ha as (Hw & H0 & Hn & Hd & Hs). rewrite tokens_step; auto; [|cbn; auto]. cbn [failed].
    rewrite processing_other; auto.
    assert (List.length ([nl] ++ join_args argv ++ dash :: nl :: rest) < f) as Hf'.
    { destruct (word_first _ Hw) as (c & r & ->). cbn in Hf |- *. rewrite !app_length in Hf. cbn in Hf. rewrite app_length in Hf. cbn in Hf. lia. }
    assert (blank [nl]) as Hb1 by (repeat constructor).
    specialize (IH [nl] Hb1 f (put m a) Hf'). change (puts (a :: argv) m) with (puts argv (put m a)). revert IH. unfold put.
    destruct a as [|c r]; [destruct Hw; congruence|]. cbn [starts_with].
    destruct (ascii_dec c "#") as [->|N1]; [exfalso; eapply Hn; eauto|].
    destruct (ascii_dec c "-") as [->|N2]; auto.
    destruct r as [|d r]; [congruence|]. auto.
Qed.
Lemma construct_dash files before after : Forall plain_arg before ->
  Forall (fun a => is_response a = false) (before ++ [dash] :: after) ->
  construct T tstore files (before ++ [dash] :: after) = Ok (base true before).
Proof.
  intros Hp Hr. unfold construct. rewrite find_response_none; auto. cbn [rbind].
  unfold read_maps, join_args. rewrite flat_map_app. cbn [flat_map app].
  change (flat_map (fun a => a ++ [nl]) before) with (join_args before).
  change (join_args before ++ dash :: nl :: flat_map (fun a => a ++ [nl]) after)
    with ([] ++ join_args before ++ dash :: nl :: flat_map (fun a => a ++ [nl]) after).
  rewrite tokens_dash; auto. constructor.
Qed.
End P.
