(** Printing the parser and reading the text back. *)
From Coq Require Import String Bool Ascii NArith Lia Arith Permutation List.
From Verif Require Import Lib Outcome StreamModel StreamSpec StreamProofs JsonModel CliModel CliSpec CliProofs CliParser.
Import ListNotations.
Open Scope char_scope.
Open Scope list_scope.

Lemma one_line_app a b : one_line a -> one_line b -> one_line (a ++ b).
Proof. unfold one_line. intros H1 H2 F. apply in_app_or in F as [F|F]; auto. Qed.
Lemma one_line_nospace a : Forall (fun c => is_space c = false) a -> one_line a.
Proof. intros H F. rewrite Forall_forall in H. specialize (H _ F). discriminate. Qed.
Lemma one_line_repeat c n : c <> nl -> one_line (repeat c n).
Proof. intros N F. apply repeat_spec in F. unfold nl in N. congruence. Qed.
Lemma upper_nl c : upper c = nl -> c = nl.
Proof.
  unfold upper. destruct (Nat.leb 97 (nat_of_ascii c) && Nat.leb (nat_of_ascii c) 122)%bool eqn:E; auto.
  intros H. exfalso. apply andb_true_iff in E as [E1 E2]. apply Nat.leb_le in E1, E2.
  assert (nat_of_ascii (ascii_of_nat (nat_of_ascii c - 32)) = nat_of_ascii nl) as F by (rewrite H; auto).
  rewrite nat_ascii_embedding in F by lia. change (nat_of_ascii nl) with 10 in F. lia.
Qed.
Lemma one_line_upper a : one_line a -> one_line (map upper a).
Proof. intros H F. apply in_map_iff in F as (c & E & Hc). apply upper_nl in E. subst. auto. Qed.
Lemma blank_repeat n : blank (repeat " " n).
Proof. apply Forall_forall. intros x H. apply repeat_spec in H. subst. auto. Qed.

Section S.
Variable T : Type.
Variable tshow : T -> text.
Variable tstore : text -> T -> T.
Notation param := (param T).
Notation parser := (parser T).
Notation printable := (printable T tshow).

Definition saved_arg (q : param) : text := dash :: dash :: lname T q ++ eq_c :: vshow T tshow (value T q).
Definition saved (m : maps) (qs : list param) : list text := map saved_arg (filter (is_there T m) qs).

Lemma saved_plain q : printable q -> plain_arg (saved_arg q).
Proof.
  intros (H1 & H2 & H3 & H4 & H5 & _). unfold saved_arg. repeat split; try discriminate.
  - constructor; auto. constructor; auto. apply Forall_app. split; auto.
  - intros [F|[F|F]]; try discriminate. apply in_app_or in F as [F|[F|F]]; auto. discriminate.
  - intros (r & E). discriminate.
Qed.
Lemma header_says sec rest args : one_line sec -> file_says true rest args -> file_says true (section_header sec ++ rest) args.
Proof.
  intros H1 H. unfold section_header.
  set (s := match sec with [] => list_ascii_of_string "General" | _ => sec end).
  assert (one_line s) as Hs. { unfold s. destruct sec; auto. intros F. cbn in F. repeat destruct F as [F|F]; try discriminate; auto. }
  set (c := list_ascii_of_string "## " ++ pad 80 "#" (map upper s ++ [" "])).
  change (([nl] ++ list_ascii_of_string "### " ++ pad 80 "#" (map upper s ++ [" "]) ++ [nl]) ++ rest)
    with ([nl] ++ "#" :: ((list_ascii_of_string "## " ++ pad 80 "#" (map upper s ++ [" "]) ++ [nl]) ++ rest)).
  rewrite (app_assoc _ _ [nl]). fold c. rewrite <- app_assoc. cbn [app].
  apply (fs_comment [nl] c rest args); auto; [repeat constructor|].
  unfold c. apply one_line_app. { intros F. cbn in F. repeat destruct F as [F|F]; try discriminate; auto. }
  unfold pad. apply one_line_app; [|apply one_line_repeat; discriminate].
  apply one_line_app; [apply one_line_upper; auto|]. intros [F|[]]; discriminate.
Qed.
Definition tail_text (q : param) : text :=
  " " :: match sname T q with Some c => [dash; c] ++ list_ascii_of_string " : " | None => [] end ++
  descr T q ++ (if required T q then list_ascii_of_string " REQUIRED " else []).
Lemma tail_one_line q : printable q -> one_line (tail_text q).
Proof.
  intros (_ & _ & _ & _ & _ & Hd & Hs). unfold tail_text. apply (one_line_app [" "]); [intros [F|[]]; discriminate|].
  apply one_line_app; [|apply one_line_app; auto].
  - destruct (sname T q) as [c|]; [|intros []].
    intros F. cbn in F. repeat destruct F as [F|F]; try discriminate; auto. congruence.
  - destruct (required T q); intros F; cbn in F; repeat destruct F as [F|F]; try discriminate; auto.
Qed.
Lemma line_says m q rest args : printable q -> file_says true rest args ->
  file_says true (param_line T tshow m q ++ rest) (if is_there T m q then saved_arg q :: args else args).
Proof.
  intros Hp H. pose proof (tail_one_line q Hp) as Ht.
  assert (exists k, param_line T tshow m q ++ rest =
    (if is_there T m q then [] else ["#"; " "]) ++ saved_arg q ++ repeat " " k ++ " " :: "#" :: tail_text q ++ nl :: rest) as (k & ->).
  { exists (40 - List.length (saved_arg q)). unfold param_line, pad.
    change (list_ascii_of_string "--" ++ lname T q ++ [eq_c] ++ vshow T tshow (value T q)) with (saved_arg q).
    change (list_ascii_of_string "# ") with ["#"; " "]. change (list_ascii_of_string " # ") with [" "; "#"; " "].
    unfold tail_text. rewrite <- !app_assoc. f_equal. f_equal. f_equal. cbn [app]. rewrite <- !app_assoc. cbn [app]. reflexivity. }
  destruct (is_there T m q).
  - cbn [app]. apply (fs_arg []); [constructor|apply saved_plain; auto| |].
    + destruct k; cbn; auto.
    + change (repeat " " k ++ " " :: "#" :: tail_text q ++ nl :: rest) with (repeat " " k ++ [" "] ++ "#" :: tail_text q ++ nl :: rest).
      rewrite app_assoc. apply fs_comment; auto. apply Forall_app. split; [apply blank_repeat|repeat constructor].
  - assert (["#"; " "] ++ saved_arg q ++ repeat " " k ++ " " :: "#" :: tail_text q ++ nl :: rest =
            [] ++ "#" :: (([" "] ++ saved_arg q ++ repeat " " k ++ [" "; "#"] ++ tail_text q) ++ "010" :: rest)) as ->.
    { cbn [app]. rewrite <- !app_assoc. reflexivity. }
    apply fs_comment; auto; [constructor|]. destruct Hp as (H1 & H2 & H3 & _).
    apply one_line_app; [intros [F|[]]; discriminate|]. apply one_line_app.
    + apply one_line_nospace. unfold saved_arg. constructor; auto. constructor; auto. apply Forall_app. split; auto.
    + apply one_line_app; [apply one_line_repeat; discriminate|]. apply one_line_app; auto.
      intros [F|[F|[]]]; discriminate.
Qed.
Lemma lines_says m l : forall sec, Forall (fun e => one_line (fst e) /\ printable (snd e)) l ->
  file_says true (param_lines T tshow m sec l) (saved m (map snd l)).
Proof.
  induction l as [|[s q] l IH]; intros sec H; cbn [param_lines map].
  - apply fs_end. constructor.
  - inversion H as [|? ? [Hs Hq] Hl]; subst. cbn [fst snd] in Hs, Hq. unfold saved. cbn [filter].
    assert (file_says true (param_line T tshow m q ++ param_lines T tshow m s l)
      (map saved_arg (if is_there T m q then q :: filter (is_there T m) (map snd l) else filter (is_there T m) (map snd l)))) as K.
    { pose proof (line_says m q _ _ Hq (IH s Hl)) as K. unfold saved in K. destruct (is_there T m q); auto. }
    destruct (text_eqb s sec); [exact K|]. apply header_says; auto.
Qed.
Lemma print_says p : Forall printable (all_params T p) -> Forall one_line (map fst (others T p)) ->
  file_says true (print_on T tshow p) (saved (given T p) (all_params T p)).
Proof.
  intros H1 H2. unfold print_on. apply header_says; [intros []|].
  apply (lines_says (given T p) (([], help T p) :: ([], stop T p) :: others T p) []).
  unfold all_params in H1. inversion H1 as [|? ? Hh H1']; subst. inversion H1' as [|? ? Hs Ho]; subst.
  constructor; [split; auto; intros []|]. constructor; [split; auto; intros []|].
  clear - Ho H2. induction (others T p) as [|e l IH]; constructor; inversion Ho; inversion H2; subst; auto.
Qed.

(** what the saved text gives to each parameter *)
Lemma saved_gives_short m qs c v a : In a (saved m qs) -> ~ gives_short c v a.
Proof.
  intros Ha G. apply in_map_iff in Ha as (q & <- & _). unfold saved_arg in G.
  apply gives_short_shape in G as (r & E & N). injection E as E1 _. congruence.
Qed.
Lemma saved_gives_long q n v : ~ In eq_c (lname T q) -> gives_long n v (saved_arg q) -> n = lname T q /\ v = vshow T tshow (value T q).
Proof.
  intros H G. apply gives_long_shape in G as (r & E & S). unfold saved_arg in E. injection E as <-.
  assert (split_equal (lname T q ++ eq_c :: vshow T tshow (value T q)) = (lname T q, vshow T tshow (value T q))) as E2.
  { apply split_equal_spec. auto. }
  rewrite E2 in S. injection S as <- <-. auto.
Qed.
Lemma saved_chosen m qs q : Forall printable qs -> NoDup (map (lname T) qs) -> In q qs ->
  chosen (lname T q) (sname T q) (saved m qs) (if is_there T m q then Some (vshow T tshow (value T q)) else None).
Proof.
  intros Hp Hn Hq.
  assert (short_never (sname T q) (saved m qs)) as Hs. { intros c _ a v Ha. eapply saved_gives_short; eauto. }
  rewrite Forall_forall in Hp.
  assert (forall x, In x qs -> lname T x = lname T q -> x = q) as Inj.
  { intros x Hx E. destruct (In_nth_error _ _ Hx) as (i & Hi), (In_nth_error _ _ Hq) as (j & Hj).
    assert (i = j) as ->.
    { apply (proj1 (NoDup_nth_error (map (lname T) qs)) Hn).
      - rewrite map_length. apply nth_error_Some. rewrite Hi. discriminate.
      - rewrite !nth_error_map, Hi, Hj. cbn. congruence. }
    congruence. }
  destruct (is_there T m q) eqn:E.
  - apply chosen_long; auto. apply in_split in Hq as (l1 & l2 & ->).
    exists (saved m l1), (saved_arg q), (saved m l2). split; [|split].
    + unfold saved. rewrite filter_app, map_app. cbn [filter]. rewrite E. auto.
    + split; [apply Hp; apply in_or_app; right; left; auto|left; auto].
    + intros b w Hb G. apply in_map_iff in Hb as (x & <- & Hx). apply filter_In in Hx as [Hx _].
      assert (In x (l1 ++ q :: l2)) as Hx' by (apply in_or_app; right; right; auto).
      apply saved_gives_long in G as [G _]; [|apply Hp; auto].
      rewrite map_app in Hn. cbn [map] in Hn. apply NoDup_remove_2 in Hn. apply Hn. rewrite G.
      apply in_or_app. right. apply in_map. auto.
  - apply chosen_none; auto. intros a v Ha G. apply in_map_iff in Ha as (x & <- & Hx). apply filter_In in Hx as [Hx Ex].
    apply saved_gives_long in G as [G _]; [|apply Hp; auto]. rewrite (Inj x Hx (eq_sym G)) in Ex. congruence.
Qed.

(** reading back a value *)
Lemma vstore_show v d : (forall t, v = VUser T t -> forall t', tstore (tshow t) t' = t) -> same_type T v d ->
  vstore T tstore (vshow T tshow v) d = v.
Proof. destruct v as [[]|t], d as [b|t']; cbn; intros H E; try destruct E; auto. rewrite (H t); auto. Qed.

(** *** saving a parser and building another one from the file *)
Notation declare := (declare T tstore).
Notation base := (base T tstore).
Notation registered := (registered T tstore).
Lemma same_names p p' : same_but_values T p p' ->
  map (fun q => (lname T q, sname T q)) (all_params T p) = map (fun q => (lname T q, sname T q)) (all_params T p').
Proof.
  intros (_ & (_ & H1 & H2 & _) & (_ & H3 & H4 & _) & HF). unfold all_params. cbn [map]. rewrite H1, H2, H3, H4. f_equal. f_equal.
  induction HF as [|e e' l l' (_ & (_ & E1 & E2 & _)) _ IH]; cbn; auto. rewrite E1, E2, IH. auto.
Qed.
Lemma is_there_names m q q' : lname T q = lname T q' -> sname T q = sname T q' -> is_there T m q = is_there T m q'.
Proof. intros E1 E2. unfold is_there, get_value. rewrite E1, E2. auto. Qed.

Lemma reload_value argv q0 q1 m qs :
  let m2 := puts (saved m qs) empty_maps in
  m = puts argv empty_maps ->
  Forall printable qs -> NoDup (map (lname T) qs) -> In q1 qs ->
  lname T q0 = lname T q1 -> sname T q0 = sname T q1 -> same_type T (value T q1) (value T q0) ->
  (forall t, value T q1 = VUser T t -> forall t', tstore (tshow t) t' = t) ->
  (chosen (lname T q0) (sname T q0) argv None -> registered m2 q0 = q0) /\
  (forall w, chosen (lname T q0) (sname T q0) argv (Some w) -> value T (registered m2 q0) = value T q1).
Proof.
  intros m2 Em Hp Hn Hq En Es Ht Hr. pose proof (saved_chosen m qs q1 Hp Hn Hq) as C. rewrite <- En, <- Es in C.
  unfold CliModel.registered. subst m2. rewrite (get_value_is T (saved m qs) q0 _ C).
  assert (is_there T m q1 = match get_value T m q0 with Some _ => true | None => false end) as E.
  { unfold is_there, get_value. rewrite <- En, <- Es. auto. }
  rewrite E, Em. split.
  - intros C0. rewrite (get_value_is T argv q0 _ C0). auto.
  - intros w C0. rewrite (get_value_is T argv q0 _ C0). cbn. apply vstore_show; auto.
Qed.

Lemma declared_in b argv decls q sec : In (q, sec) decls ->
  In (sec, registered (puts argv empty_maps) q) (others T (declare (base b argv) decls)).
Proof.
  intros H. destruct (declare_spec T tstore decls (base b argv)) as (_ & _ & _ & _ & P & _). cbn in P. rewrite app_nil_r in P.
  eapply Permutation_in; [symmetry; exact P|]. apply in_map_iff. exists (q, sec). split; auto. destruct q; auto.
Qed.
Lemma registered_names m (q : param) : lname T (registered m q) = lname T q /\ sname T (registered m q) = sname T q.
Proof. unfold CliModel.registered. destruct (get_value T m q); auto. Qed.
Lemma registered_type m (q : param) : same_type T (value T q) (value T (registered m q)).
Proof. unfold CliModel.registered. destruct (get_value T m q), q as [n s r [b|t] d]; cbn; auto. Qed.
Lemma Forall2_pick {A B} (R : A -> B -> Prop) l l' x : Forall2 R l l' -> In x l -> exists y, In y l' /\ R x y.
Proof. induction 1 as [|a b l l' H _ IH]; [intros []|]. intros [<-|Hx]; [exists b; cbn; auto|]. destruct (IH Hx) as (y & ? & ?). exists y. cbn. auto. Qed.
Lemma same_type_trans a b c : same_type T a b -> same_type T b c -> same_type T a c.
Proof. destruct a, b, c; cbn; tauto. Qed.
Lemma same_type_sym a b : same_type T a b -> same_type T b a.
Proof. destruct a, b; cbn; tauto. Qed.

Lemma declare_help args decls : help T (declare (base false args) decls) = registered (puts args empty_maps) (help_param T false) /\
  stop T (declare (base false args) decls) = registered (puts args empty_maps) (stop_param T).
Proof. destruct (declare_spec T tstore decls (base false args)) as (_ & F2 & F3 & _). auto. Qed.
Lemma reload files f argv decls p :
  plain_arg ("@" :: f) ->
  same_but_values T (declare (base false argv) decls) p ->
  Forall printable (all_params T p) -> Forall one_line (map fst (others T p)) ->
  NoDup (map (lname T) (all_params T p)) ->
  (forall q t, In q (all_params T p) -> value T q = VUser T t -> forall t', tstore (tshow t) t' = t) ->
  files f = Some (print_on T tshow p) ->
  exists p0, construct T tstore files ["@" :: f] = Ok p0 /\
  let p2 := declare p0 decls in
  (forall q sec, In (q, sec) decls -> exists q1 q2,
     In (sec, q1) (others T p) /\ In (sec, q2) (others T p2) /\ restored T argv q q1 q2) /\
  restored T argv (help_param T false) (help T p) (help T p2) /\
  restored T argv (stop_param T) (stop T p) (stop T p2).
Proof.
  intros Hf Hs Hp Ho Hn Hr Hl.
  destruct Hs as (Eg & Sh & Ss & SF).
  destruct (declare_spec T tstore decls (base false argv)) as (D1 & D2 & D3 & _). cbn in D1, D2, D3.
  rewrite D2 in Sh. rewrite D3 in Ss. rewrite D1 in Eg.
  pose proof (print_says p Hp Ho) as Says.
  exists (base false (saved (given T p) (all_params T p))). split.
  { rewrite (construct_file T tstore files ["@" :: f] ("@" :: f) _ _ ltac:(auto) eq_refl Hl Says). cbn. rewrite app_nil_r. auto. }
  set (args2 := saved (given T p) (all_params T p)).
  destruct (declare_help args2 decls) as [F2 F3].
  assert (forall q0 q1, In q1 (all_params T p) -> same_param T (registered (puts argv empty_maps) q0) q1 ->
    restored T argv q0 q1 (registered (puts args2 empty_maps) q0)) as K.
  { intros q0 q1 Hq (Ht & En & Es & _). destruct (registered_names (puts argv empty_maps) q0) as [En0 Es0]. rewrite En0 in En. rewrite Es0 in Es.
    destruct (registered_names (puts args2 empty_maps) q0) as [En2 Es2].
    destruct (reload_value argv q0 q1 (given T p) (all_params T p) (eq_sym Eg) Hp Hn Hq En Es) as [R1 R2].
    - apply same_type_sym. eapply same_type_trans; [apply registered_type|exact Ht].
    - intros t Et. eapply Hr; eauto.
    - fold args2 in R1, R2. repeat split; auto. intros C. rewrite R1; auto. }
  cbv zeta. rewrite F2, F3. split; [|split].
  - intros q sec Hq. pose proof (declared_in false argv decls q sec Hq) as Hi.
    destruct (Forall2_pick _ _ _ _ SF Hi) as ([s1 q1] & Hq1 & Es & Sp). cbn in Es, Sp. subst s1.
    exists q1, (registered (puts args2 empty_maps) q). split; auto. split; [apply declared_in; auto|].
    apply K; auto. unfold all_params. right. right. apply (in_map snd) in Hq1. auto.
  - apply K; auto. left. auto.
  - apply K; auto. right. left. auto.
Qed.
End S.
