(** Properties of the command-line parser (C100 to C104). *)
From Coq Require Import String Bool Ascii NArith Lia Arith Permutation List.
From Verif Require Import Lib Outcome StreamModel StreamSpec StreamProofs JsonModel CliModel CliSpec CliProofs CliParser CliSave.
Import ListNotations.
Open Scope char_scope.
Open Scope list_scope.

(** a string parameter: is >> std::string takes one word *)
Definition str_store (w : text) (old : text) : text :=
  let (v, s) := read_word (Stream w false) in if failed s then old else v.
Notation t := list_ascii_of_string.
Definition speed : param text := Param text (t "speed") (Some "s") false (VUser text (t "slow")) (t "how fast").
Definition size : param text := Param text (t "size") (Some "n") true (VUser text (t "1")) (t "how big").
Definition demo : list (param text * text) := [(speed, t "Run"); (size, [])].
Definition no_files : text -> option text := fun _ => None.
Definition one_file (l : text) : text -> option text := fun f => if text_eqb f (t "p") then Some l else None.
Ltac plain := repeat match goal with
  | |- Forall _ (_ :: _) => constructor
  | |- Forall _ [] => constructor
  | |- Forall _ (t _) => repeat constructor
  | |- plain_arg _ => unfold plain_arg
  | |- word _ => unfold word
  | |- _ /\ _ => split
  | |- forall r, _ => intro
  | |- ~ section_word _ => let r := fresh in let E := fresh in intros (r & E); discriminate E
  | |- ~ In _ _ => cbn; intuition discriminate
  | |- _ <> _ => discriminate
  end; auto.

(** C100 *)
Theorem C100_last_option_wins : forall T tstore files argv pre decls,
  Forall plain_arg argv -> Forall (fun a => is_response a = false) argv ->
  exists p, construct T tstore files argv = Ok p /\
  exists qs, Permutation (others T (declare T tstore (set_prefix T p pre) decls)) (combine (map (fun d => pre ++ snd d) decls) qs) /\
             Forall2 (fun d q => settled T tstore argv pre (fst d) q) decls qs.
Proof.
  intros T tstore files argv pre decls Hp Hr. exists (base T tstore false argv). split; [apply construct_args; auto|].
  apply declared_settled.
Qed.
Theorem C100_value_by_name : forall T tstore files argv pre decls q sec o,
  Forall plain_arg argv -> Forall (fun a => is_response a = false) argv ->
  NoDup (map fst (known_names T pre decls)) -> In (q, sec) decls ->
  chosen (pre ++ lname T q) (sname T q) argv o ->
  exists p, construct T tstore files argv = Ok p /\
  let p' := declare T tstore (set_prefix T p pre) decls in
  value_of T p' (lname T q) = Ok (match o with Some w => vstore T tstore w (value T q) | None => value T q end) /\
  is_there_named T p' (lname T q) = Ok (match o with Some _ => true | None => false end).
Proof.
  intros T tstore files argv pre decls q sec o Hp Hr Hn Hq C. exists (base T tstore false argv). split; [apply construct_args; auto|].
  intros p'. destruct (declare_spec T tstore decls (set_prefix T (base T tstore false argv) pre)) as (D1 & D2 & D3 & D4 & D5 & _).
  fold p' in D1, D2, D3, D4, D5. cbn in D1, D2, D3, D4, D5. rewrite app_nil_r in D5.
  set (m := puts argv empty_maps) in *. set (q1 := registered T tstore m (prefixed T pre q)).
  assert (param_with T p' (lname T q) = Some q1) as E.
  { unfold param_with, all_params. rewrite D4, D2, D3.
    assert (forall x, lname T (registered T tstore m x) = lname T x) as N by (intros x; apply registered_names).
    assert (In (pre ++ lname T q) (map (fun d => pre ++ lname T (fst d)) decls)) as Hin.
    { change (pre ++ lname T q) with ((fun d : param T * text => pre ++ lname T (fst d)) (q, sec)). apply in_map. auto. }
    unfold known_names in Hn. cbn [map fst] in Hn. rewrite map_map in Hn. cbn [fst] in Hn.
    apply NoDup_cons_iff in Hn as [N1 Hn1]. apply NoDup_cons_iff in Hn1 as [N2 Hn2].
    cbn [List.find]. rewrite !N. cbn [lname help_param stop_param].
    rewrite !text_eqb_neq; [|intros F; apply N2; rewrite F; auto|intros F; apply N1; right; rewrite F; auto].
    assert (In (pre ++ sec, q1) (others T p')) as Hi.
    { eapply Permutation_in; [symmetry; exact D5|]. apply in_map_iff. exists (q, sec). auto. }
    assert (forall x, In x (map snd (others T p')) -> lname T x = pre ++ lname T q -> x = q1) as Inj.
    { intros x Hx Ex. apply in_map_iff in Hx as (e & <- & He). eapply Permutation_in in He; [|exact D5].
      apply in_map_iff in He as (d & <- & Hd). cbn in Ex |- *. rewrite N in Ex. cbn in Ex.
      assert (fst d = q) as ->; auto.
      unfold StreamModel.text in *. destruct (In_nth_error _ _ Hd) as (i & Hi1), (In_nth_error _ _ Hq) as (j & Hj).
      assert (i = j) as ->; [|assert (Some d = Some (q, sec)) as Ed by (transitivity (nth_error decls j); [symmetry; exact Hi1|exact Hj]); injection Ed as ->; auto].
      apply (proj1 (NoDup_nth_error (map (fun d => pre ++ lname T (fst d)) decls)) Hn2).
      - rewrite map_length. apply nth_error_Some. rewrite Hi1. discriminate.
      - rewrite !nth_error_map, Hi1, Hj. cbn. congruence. }
    apply (in_map snd) in Hi. cbn [snd] in Hi. revert Hi Inj. generalize (map snd (others T p')). intros l.
    induction l as [|x l IH]; [intros []|]. intros Hi Inj. cbn [List.find].
    destruct (text_eqb (lname T x) (pre ++ lname T q)) eqn:Ex.
    - apply eqb_eq in Ex. f_equal. apply Inj; auto. left. auto.
    - destruct Hi as [->|Hi]; [|apply IH; auto; intros; apply Inj; auto; right; auto].
      exfalso. unfold q1 in Ex. rewrite N in Ex. cbn in Ex. rewrite text_eqb_refl in Ex. discriminate. }
  unfold value_of, is_there_named. rewrite E. cbn [of_opt rbind].
  pose proof (get_value_is T argv (prefixed T pre q) o C) as G. fold m in G.
  assert (get_value T m q1 = o) as G1.
  { destruct (registered_names T tstore m (prefixed T pre q)) as [E1 E2]. unfold q1. rewrite <- G. unfold get_value. rewrite E1, E2. auto. }
  split.
  - unfold q1, registered. rewrite G. destruct o; auto.
  - unfold is_there. rewrite D1, G1. auto.
Qed.
Theorem C100_white_space_cuts_arguments : forall T tstore files argv parts,
  Forall2 splits argv parts -> Forall plain_arg (concat parts) ->
  Forall (fun a => is_response a = false) argv -> Forall (fun a => is_response a = false) (concat parts) ->
  construct T tstore files argv = construct T tstore files (concat parts).
Proof. apply construct_split. Qed.
Example C100_met :
  let argv := [t "--speed=fast"; t "-n12"; t "--speed=faster"; t "--size=3"] in
  Forall plain_arg argv /\ Forall (fun a => is_response a = false) argv /\
  NoDup (map fst (known_names text [] demo)) /\
  (match construct text str_store no_files argv with
   | Ok p => let p' := declare text str_store p demo in
       value_of text p' (t "speed") = Ok (VUser text (t "faster")) /\ value_of text p' (t "size") = Ok (VUser text (t "12")) /\
       value_of text p' (t "other") = Throw
   | _ => False end) /\
  splits (t "--speed=very fast") [t "--speed=very"; t "fast"].
Proof.
  split; [plain|]. split; [plain|]. split.
  { repeat constructor; cbn; intuition discriminate. }
  split; [vm_compute; auto|].
  change (t "--speed=very fast") with ([] ++ t "--speed=very" ++ ([" "] ++ t "fast" ++ [])).
  repeat (constructor; plain).
Qed.

(** C101 *)
Theorem C101_file_before_command_line : forall T tstore files argv a l fargs,
  Forall plain_arg argv -> List.find is_response argv = Some a -> files (tl a) = Some l -> file_says true l fargs ->
  Forall plain_arg fargs -> Forall (fun a => is_response a = false) fargs ->
  construct T tstore files argv = construct T tstore files (fargs ++ filter (fun a => negb (is_response a)) argv).
Proof.
  intros T tstore files argv a l fargs Hp Hf Hl Hs Hpf Hrf. rewrite (construct_file T tstore files argv a l fargs); auto.
  symmetry. apply construct_args.
  - apply Forall_app. split; auto. rewrite Forall_forall in *. intros x Hx. apply filter_In in Hx as [Hx _]. auto.
  - apply Forall_app. split; auto. apply Forall_forall. intros x Hx. apply filter_In in Hx as [_ Hx]. destruct (is_response x); auto.
Qed.
Theorem C101_missing_file_throws : forall T tstore files argv a,
  List.find is_response argv = Some a -> files (tl a) = None -> construct T tstore files argv = Throw.
Proof. intros T tstore files argv a Hf Hl. unfold construct. rewrite Hf, Hl. auto. Qed.
(** the command line wins, except for a long form against a short form of the file *)
Theorem C101_command_line_priority : forall n s fargs argv w,
  chosen n s argv (Some w) ->
  (short_never s fargs \/ exists c v, s = Some c /\ last_given (gives_short c) argv v) ->
  chosen n s (fargs ++ argv) (Some w).
Proof.
  assert (forall g fargs argv v, last_given g argv v -> last_given g (fargs ++ argv) v) as L.
  { intros g fargs argv v (b & a & r & -> & G & H). exists (fargs ++ b), a, r. rewrite app_assoc. auto. }
  intros n s fargs argv w C H. inversion C as [c v E Lg|v N Lg|]; subst.
  - apply (chosen_short _ _ _ c); auto.
  - destruct H as [H|(c & v & -> & Lc)].
    + apply chosen_long; auto. intros c Ec a v Ha. apply in_app_or in Ha as [Ha|Ha]; [apply (H c Ec a v Ha)|apply (N c Ec a v Ha)].
    + exfalso. eapply last_not_never; [exact Lc|]. apply N; auto.
Qed.
Theorem C101_file_kept : forall n s fargs argv o,
  chosen n s argv None -> chosen n s fargs o -> chosen n s (fargs ++ argv) o.
Proof.
  intros n s fargs argv o C1 C2. inversion C1 as [| |N1 N2]; subst.
  assert (forall g v, last_given g fargs v -> never_given g argv -> last_given g (fargs ++ argv) v) as L.
  { intros g v (b & a & r & -> & G & H) N. exists b, a, (r ++ argv). rewrite <- app_assoc. repeat split; auto.
    intros x w Hx. apply in_app_or in Hx as [Hx|Hx]; [apply H; auto|apply N; auto]. }
  assert (forall g, never_given g fargs -> never_given g argv -> never_given g (fargs ++ argv)) as NN.
  { intros g A B x v Hx. apply in_app_or in Hx as [Hx|Hx]; [apply A; auto|apply B; auto]. }
  inversion C2 as [c v E Lg|v N Lg|N M]; subst.
  - apply (chosen_short _ _ _ c); auto.
  - apply chosen_long; auto. intros c Ec. apply NN; auto.
  - apply chosen_none; auto. intros c Ec. apply NN; auto.
Qed.
Example C101_met :
  let file := t "# --size=9" ++ [nl] ++ t "--speed=fast  # -s9" ++ [nl] ++ t "-n4" in
  let argv := [t "@p"; t "--speed=slow"] in
  file_says true file [t "--speed=fast"; t "-n4"] /\ Forall plain_arg argv /\
  List.find is_response argv = Some (t "@p") /\
  (match construct text str_store (one_file file) argv with
   | Ok p => let p' := declare text str_store p demo in
       value_of text p' (t "speed") = Ok (VUser text (t "slow")) /\ value_of text p' (t "size") = Ok (VUser text (t "4"))
   | _ => False end) /\
  chosen (t "speed") (Some "s") [t "--speed=slow"] (Some (t "slow")) /\ short_never (Some "s") [t "--speed=fast"; t "-n4"] /\
  chosen (t "size") (Some "n") [t "--speed=slow"] None /\ chosen (t "size") (Some "n") [t "--speed=fast"; t "-n4"] (Some (t "4")) /\
  file_says true (t "\section{Other}" ++ t " --speed=9 " ++ t "\section{eoParser}" ++ t " -n5") [t "-n5"].
Proof.
  split.
  { change (t "# --size=9" ++ [nl] ++ t "--speed=fast  # -s9" ++ [nl] ++ t "-n4")
      with ([] ++ "#" :: t " --size=9" ++ "010" :: ([] ++ t "--speed=fast" ++ ([" "; " "] ++ "#" :: t " -s9" ++ "010" :: ([] ++ t "-n4" ++ [])))).
    apply fs_comment; [constructor|intros F; cbn in F; intuition discriminate|].
    apply fs_arg; [constructor|plain|cbn; auto|].
    apply fs_comment; [repeat constructor|intros F; cbn in F; intuition discriminate|].
    apply fs_arg; [constructor|plain|cbn; auto|]. apply fs_end. constructor. }
  split; [plain|]. split; [reflexivity|]. split; [vm_compute; auto|].
  pose (qs := Param text (t "speed") (Some "s") false (VUser text []) []).
  pose (qn := Param text (t "size") (Some "n") false (VUser text []) []).
  split; [exact (get_value_chosen text [t "--speed=slow"] qs)|].
  split. { intros c E. injection E as <-. intros a v [<-|[<-|[]]] (_ & [F|[F _]]); discriminate. }
  split; [exact (get_value_chosen text [t "--speed=slow"] qn)|].
  split; [exact (get_value_chosen text [t "--speed=fast"; t "-n4"] qn)|].
  change (t "\section{Other}" ++ t " --speed=9 " ++ t "\section{eoParser}" ++ t " -n5")
    with ([] ++ t "\section{Other}" ++ ([" "] ++ t "--speed=9" ++ ([" "] ++ t "\section{eoParser}" ++ ([" "] ++ t "-n5" ++ [])))).
  apply fs_close; [constructor|plain|exists (t "Other}"); auto| |cbn; auto|].
  { intros (a & b & E). assert (find (t "Parser") (t "\section{Other}") = None) as F by (vm_compute; auto).
    destruct (proj2 (find_spec (t "Parser") (t "\section{Other}"))) as (n & Hn); [eauto|]. congruence. }
  apply fs_ignored; [repeat constructor|plain|plain|cbn; auto|].
  apply fs_open; [repeat constructor|plain|exists (t "eoParser}"); auto|exists (t "\section{eo"), (t "}"); auto|cbn; auto|].
  apply fs_arg; [repeat constructor|plain|cbn; auto|]. apply fs_end. constructor.
Qed.

(** C102 *)
Theorem C102_needs_help_exactly : forall T tstore files argv pre decls,
  Forall plain_arg argv -> Forall (fun a => is_response a = false) argv ->
  exists p, construct T tstore files argv = Ok p /\
  (fst (user_needs_help T (declare T tstore (set_prefix T p pre) decls)) = true <->
   switched (t "help") (Some "h") argv false true \/
   (exists d, In d decls /\ required T (fst d) = true /\ chosen (pre ++ lname T (fst d)) (sname T (fst d)) argv None) \/
   (switched (t "stopOnUnknownParam") None argv true true /\
    exists a, In a argv /\ unknown_option (known_names T pre decls) a)).
Proof.
  intros T tstore files argv pre decls Hp Hr. exists (base T tstore false argv). split; [apply construct_args; auto|].
  apply needs_help. rewrite Forall_forall in *. intros a Ha. apply (Hp a Ha).
Qed.
Theorem C102_lone_dash_asks_for_help : forall T tstore files before after pre decls,
  Forall plain_arg before -> Forall (fun a => is_response a = false) (before ++ ["-"] :: after) ->
  chosen (t "help") (Some "h") before None ->
  exists p p0, construct T tstore files (before ++ ["-"] :: after) = Ok p /\ construct T tstore files before = Ok p0 /\
  given T p = given T p0 /\
  fst (user_needs_help T (declare T tstore (set_prefix T p pre) decls)) = true.
Proof.
  intros T tstore files before after pre decls Hp Hr C. exists (base T tstore true before), (base T tstore false before).
  split; [apply construct_dash; auto|]. split; [apply construct_args; auto; apply Forall_app in Hr; tauto|]. split; [auto|].
  apply needs_help; [rewrite Forall_forall in *; intros a Ha; apply (Hp a Ha)|]. left. exists None. auto.
Qed.
Example C102_met :
  (match construct text str_store no_files [t "-n3"; t "--speed"] with
   | Ok p => fst (user_needs_help text (declare text str_store p demo)) = false | _ => False end) /\
  (match construct text str_store no_files [t "--speed=1"] with
   | Ok p => fst (user_needs_help text (declare text str_store p demo)) = true | _ => False end) /\
  (match construct text str_store no_files [t "-n3"; t "--sped=1"] with
   | Ok p => fst (user_needs_help text (declare text str_store p demo)) = true | _ => False end) /\
  (match construct text str_store no_files [t "-n3"; t "--sped=1"; t "--stopOnUnknownParam=0"] with
   | Ok p => fst (user_needs_help text (declare text str_store p demo)) = false | _ => False end) /\
  (match construct text str_store no_files [t "-n3"; t "-h"] with
   | Ok p => fst (user_needs_help text (declare text str_store p demo)) = true | _ => False end) /\
  chosen (t "help") (Some "h") [t "-n3"] None /\
  (match construct text str_store no_files [t "-n3"; t "-"; t "--speed=2"] with
   | Ok p => fst (user_needs_help text (declare text str_store p demo)) = true | _ => False end).
Proof.
  do 5 (split; [vm_compute; reflexivity|]). split; [|vm_compute; reflexivity].
  exact (get_value_chosen text [t "-n3"] (Param text (t "help") (Some "h") false (VUser text []) [])).
Qed.

(** C103 *)
Theorem C103_save_and_reload : forall T tshow tstore files f argv decls p0 p,
  Forall plain_arg argv -> Forall (fun a => is_response a = false) argv -> plain_arg ("@" :: f) ->
  construct T tstore files argv = Ok p0 ->
  same_but_values T (declare T tstore p0 decls) p ->
  Forall (printable T tshow) (all_params T p) -> Forall one_line (map fst (others T p)) ->
  NoDup (map (lname T) (all_params T p)) ->
  (forall q x, In q (all_params T p) -> value T q = VUser T x -> forall x', tstore (tshow x) x' = x) ->
  files f = Some (print_on T tshow p) ->
  exists p1, construct T tstore files ["@" :: f] = Ok p1 /\
  let p2 := declare T tstore p1 decls in
  (forall q sec, In (q, sec) decls -> exists q1 q2,
     In (sec, q1) (others T p) /\ In (sec, q2) (others T p2) /\ restored T argv q q1 q2) /\
  restored T argv (help_param T false) (help T p) (help T p2) /\
  restored T argv (stop_param T) (stop T p) (stop T p2).
Proof.
  intros T tshow tstore files f argv decls p0 p Hp Hr Hf Hc Hs. rewrite (construct_args T tstore files argv Hp Hr) in Hc.
  injection Hc as <-. intros. eapply reload; eauto.
Qed.
Definition demo_p : parser text := Eval vm_compute in
  match construct text str_store no_files [t "-n4"] with Ok p => declare text str_store p demo | _ => base text str_store false [] end.
Example C103_met :
  (exists p0, construct text str_store no_files [t "-n4"] = Ok p0 /\ declare text str_store p0 demo = demo_p) /\
  Forall (printable text (fun x => x)) (all_params text demo_p) /\ Forall one_line (map fst (others text demo_p)) /\
  NoDup (map (lname text) (all_params text demo_p)) /\ same_but_values text demo_p demo_p /\
  (forall q x, In q (all_params text demo_p) -> value text q = VUser text x -> forall x', str_store x x' = x) /\
  plain_arg (t "@p") /\
  match construct text str_store (one_file (print_on text (fun x => x) demo_p)) [t "@p"] with
  | Ok p1 => value_of text (declare text str_store p1 demo) (t "size") = Ok (VUser text (t "4"))
  | _ => False end.
Proof.
  split. { exists (base text str_store false [t "-n4"]). split; vm_compute; reflexivity. }
  split; [|split; [|split; [|split; [|split; [|split; [plain|]]]]]].
  - repeat (apply Forall_cons || apply Forall_nil); (split; [repeat constructor|]); (split; [cbn; intuition discriminate|]);
      (split; [repeat constructor|]); (split; [cbn; intuition discriminate|]); (split; [cbn; intuition discriminate|]);
      (split; [unfold one_line; cbn; intuition discriminate|discriminate]).
  - repeat constructor; unfold one_line; cbn; intuition discriminate.
  - repeat constructor; cbn; intuition discriminate.
  - repeat split; cbn; auto; repeat constructor.
  - intros q x [<-|[<-|[<-|[<-|[]]]]] E x'; vm_compute in E; try discriminate; injection E as <-; reflexivity.
  - vm_compute. reflexivity.
Qed.

(** C104: promises of the documentation that do not hold *)
(** "need to process the param file first if we want command-line to have highest priority" *)
Theorem C104_command_line_priority_refuted :
  ~ (forall T tstore files file argv a q w p,
       Forall plain_arg argv -> List.find is_response argv = Some a -> files (tl a) = Some file ->
       chosen (lname T q) (sname T q) argv (Some w) -> construct T tstore files argv = Ok p ->
       value_of T (declare T tstore p [(q, [])]) (lname T q) = Ok (vstore T tstore w (value T q))).
Proof.
  intros H. specialize (H text str_store (one_file (t "-sslow")) (t "-sslow") [t "@p"; t "--speed=fast"] (t "@p") speed (t "fast")).
  set (r := construct text str_store (one_file (t "-sslow")) [t "@p"; t "--speed=fast"]) in H. vm_compute in r.
  eassert (Forall plain_arg [t "@p"; t "--speed=fast"]) as Hp by plain.
  specialize (H _ Hp eq_refl eq_refl (get_value_chosen text [t "@p"; t "--speed=fast"] speed) eq_refl).
  vm_compute in H. discriminate.
Qed.
(** "it can be stored and reloaded to restore parameter settings": not for a parameter the
    program has set itself, nor for a value with a blank *)
Theorem C104_reload_refuted :
  ~ (forall argv decls p0 p p1, construct text str_store no_files argv = Ok p0 ->
       same_but_values text (declare text str_store p0 decls) p ->
       (forall q x, In q (all_params text p) -> value text q = VUser text x -> forall x', str_store x x' = x) ->
       construct text str_store (one_file (print_on text (fun x => x) p)) [t "@p"] = Ok p1 ->
       forall n, value_of text (declare text str_store p1 decls) n = value_of text p n).
Proof.
  intros H.
  pose (p := Parser text (Maps [] []) (help_param text false) (stop_param text) [([], with_value text speed (VUser text (t "fast")))] [] false []).
  specialize (H [] [(speed, [])]).
  set (r0 := construct text str_store no_files []) in H. vm_compute in r0.
  match goal with r0 := Ok ?p0 |- _ => specialize (H p0 p) end.
  set (r1 := construct text str_store (one_file (print_on text (fun x => x) p)) [t "@p"]) in H. vm_compute in r1.
  match goal with r1 := Ok ?p1 |- _ => specialize (H p1 eq_refl) end.
  eassert (t "slow" = t "fast" -> False) as N by discriminate.
  assert (Ok (VUser text (t "slow")) = Ok (VUser text (t "fast"))) as E.
  { refine (H _ _ eq_refl (t "speed")).
    - repeat split; cbn; auto; repeat constructor.
    - intros q x [<-|[<-|[<-|[]]]] E x'; vm_compute in E; try discriminate; injection E as <-; reflexivity. }
  injection E. discriminate.
Qed.
Theorem C104_reload_blank_value_refuted :
  ~ (forall argv decls p0 p p1, construct text (fun w _ => w) no_files argv = Ok p0 ->
       same_but_values text (declare text (fun w _ => w) p0 decls) p ->
       (forall q sec, In (q, sec) decls -> exists w, chosen (lname text q) (sname text q) argv (Some w)) ->
       construct text (fun w _ => w) (one_file (print_on text (fun x => x) p)) [t "@p"] = Ok p1 ->
       forall n, value_of text (declare text (fun w _ => w) p1 decls) n = value_of text p n).
Proof.
  intros H. specialize (H [t "--speed=x"] [(speed, [])]).
  set (r0 := construct text (fun w _ => w) no_files [t "--speed=x"]) in H. vm_compute in r0.
  match goal with r0 := Ok ?p0 |- _ => specialize (H p0); pose (m := given text p0) end.
  pose (p := Parser text m (help_param text false) (stop_param text) [([], with_value text speed (VUser text (t "1 2")))] [] false []).
  specialize (H p).
  set (r1 := construct text (fun w _ => w) (one_file (print_on text (fun x => x) p)) [t "@p"]) in H. vm_compute in r1.
  match goal with r1 := Ok ?p1 |- _ => specialize (H p1 eq_refl) end.
  assert (Ok (VUser text (t "1")) = Ok (VUser text (t "1 2"))) as E.
  { refine (H _ _ eq_refl (t "speed")).
    - repeat split; cbn; auto; repeat constructor.
    - intros q sec [E|[]]. injection E as <- <-. exists (t "x"). exact (get_value_chosen text [t "--speed=x"] speed). }
  injection E. discriminate.
Qed.
(** setORcreateParam "makes sure that the specified parameter has the given value" *)
Theorem C104_set_existing_refuted :
  ~ (forall argv q v p, construct text str_store no_files argv = Ok p -> str_store v [] = v ->
       value_of text (set_or_create text (fun x => x) str_store (declare text str_store p [(q, [])])
                        (with_value text q (VUser text v)) []) (lname text q) = Ok (VUser text v)).
Proof.
  intros H. specialize (H [] speed (t "fast")). set (r := construct text str_store no_files []) in H. vm_compute in r.
  specialize (H _ eq_refl eq_refl). vm_compute in H. discriminate.
Qed.
Print Assumptions C100_last_option_wins.
Print Assumptions C100_value_by_name.
Print Assumptions C100_white_space_cuts_arguments.
Print Assumptions C101_file_before_command_line.
Print Assumptions C101_missing_file_throws.
Print Assumptions C101_command_line_priority.
Print Assumptions C101_file_kept.
Print Assumptions C102_needs_help_exactly.
Print Assumptions C102_lone_dash_asks_for_help.
Print Assumptions C103_save_and_reload.
Print Assumptions C104_command_line_priority_refuted.
Print Assumptions C104_reload_refuted.
Print Assumptions C104_reload_blank_value_refuted.
Print Assumptions C104_set_existing_refuted.
