(** Lemmas for StreamModel.v. *)
From Coq Require Import Decimal DecimalN String Bool Ascii NArith Lia Arith List.
From Verif Require Import Lib Outcome StreamModel StreamSpec.
Import ListNotations.
Open Scope list_scope.

Lemma skip_ws_app ws l : blank ws -> skip_ws (ws ++ l) = skip_ws l.
Proof. induction 1 as [|c ws Hc _ IH]; auto. cbn [app skip_ws]. rewrite Hc. auto. Qed.
Lemma skip_ws_word w l : w <> [] -> Forall (fun c => is_space c = false) w -> skip_ws (w ++ l) = w ++ l.
Proof. destruct w as [|c w]; [congruence|]. intros _ H. inversion H as [|? ? Hc _]; subst. cbn [app skip_ws]. rewrite Hc. auto. Qed.
Lemma take_word_app w rest : Forall (fun c => is_space c = false) w -> clean_end rest -> take_word (w ++ rest) = (w, rest).
Proof.
  induction 1 as [|c w Hc _ IH]; intros Hr.
  - destruct rest as [|c r]; auto. cbn in *. rewrite Hr. auto.
  - cbn [app take_word]. rewrite Hc, IH; auto.
Qed.
Lemma read_word_ok ws w rest : blank ws -> w <> [] -> Forall (fun c => is_space c = false) w -> clean_end rest ->
  read_word (Stream (ws ++ w ++ rest) false) = (w, Stream rest false).
Proof.
  intros Hb Hn Hw Hr. unfold read_word. cbn [failed chars]. rewrite skip_ws_app, skip_ws_word; auto.
  pose proof (take_word_app w rest Hw Hr) as E. destruct (w ++ rest) eqn:E'; [apply app_eq_nil in E' as [? _]; congruence|].
  rewrite E. auto.
Qed.

(** decimal numbers *)
Lemma digits_text_take u rest : match rest with [] => True | c :: _ => digit c = None end ->
  take_digits (digits_text u ++ rest) = (u, rest).
Proof.
  intros Hr. induction u as [|u IH|u IH|u IH|u IH|u IH|u IH|u IH|u IH|u IH|u IH]; cbn [digits_text app take_digits digit]; try rewrite IH; auto.
  destruct rest as [|c r]; auto. cbn [take_digits]. rewrite Hr. auto.
Qed.
Lemma digits_text_nospace u : Forall (fun c => is_space c = false) (digits_text u).
Proof. induction u; constructor; auto. Qed.
Lemma digits_text_digits u : Forall (fun c => digit c <> None) (digits_text u).
Proof. induction u; constructor; auto; discriminate. Qed.
Lemma to_uint_ne n : N.to_uint n <> Nil.
Proof.
  intros E. pose proof (DecimalN.Unsigned.of_to n) as H. rewrite E in H. subst n. discriminate.
Qed.
Lemma print_unsigned_ne n : print_unsigned n <> [].
Proof. unfold print_unsigned. pose proof (to_uint_ne n). destruct (N.to_uint n); congruence || discriminate. Qed.
Lemma space_no_digit c : is_space c = true -> digit c = None.
Proof. destruct c as [[] [] [] [] [] [] [] []]; intros H; first [reflexivity|discriminate H]. Qed.
Lemma read_unsigned_ok umax ws n rest : blank ws -> (n <= umax)%N -> clean_end rest ->
  read_unsigned umax (Stream (ws ++ print_unsigned n ++ rest) false) = (Some n, Stream rest false).
Proof.
  intros Hb Hn Hr. unfold read_unsigned. cbn [failed chars].
  rewrite skip_ws_app, skip_ws_word; auto using print_unsigned_ne; [|apply digits_text_nospace].
  destruct (print_unsigned n ++ rest) as [|c0 l0] eqn:E; [apply app_eq_nil in E as [E _]; destruct (print_unsigned_ne n E)|].
  rewrite <- E. unfold print_unsigned. rewrite digits_text_take.
  - pose proof (to_uint_ne n) as Hne. pose proof (DecimalN.Unsigned.of_to n) as Ho.
    destruct (N.to_uint n) eqn:Eu; try congruence; rewrite Ho;
      (apply N.leb_le in Hn; rewrite Hn; auto).
  - destruct rest as [|c r]; auto. apply space_no_digit; auto.
Qed.
Lemma print_unsigned_inj n m : print_unsigned n = print_unsigned m -> n = m.
Proof.
  unfold print_unsigned. intros H.
  pose proof (digits_text_take (N.to_uint n) [] I) as H1. pose proof (digits_text_take (N.to_uint m) [] I) as H2.
  rewrite app_nil_r in H1, H2. rewrite H in H1. rewrite H1 in H2. apply DecimalN.Unsigned.to_uint_inj. congruence.
Qed.

Lemma text_eqb_spec a b : reflect (a = b) (text_eqb a b).
Proof. unfold text_eqb. destruct (list_eq_dec ascii_dec a b); constructor; auto. Qed.
Lemma text_eqb_refl a : text_eqb a a = true.
Proof. destruct (text_eqb_spec a a); congruence. Qed.

Lemma blank_app a b : blank a -> blank b -> blank (a ++ b).
Proof. intros. apply Forall_app. auto. Qed.
Lemma blank_sp : blank [" "%char].
Proof. constructor; auto. Qed.
Lemma blank_nl : blank [nl].
Proof. constructor; auto. Qed.
#[export] Hint Resolve blank_app blank_sp blank_nl : blank.

Section EO.
Variable F : Type.
Variable fdefault fbad : F.
Variable fprint : F -> text.
Variable fparse : text -> option F.
Hypothesis Hf : fitness_text_ok fprint fparse.
Notation eo_read := (eo_read F fbad fparse).
Notation eo_print := (eo_print F fprint).

Lemma invalid_nospace : Forall (fun c => is_space c = false) invalid_tag.
Proof. repeat constructor. Qed.
(** reading back leaves the blank that followed *)
Lemma eo_read_print y x ws rest : blank ws ->
  exists x', eo_read x (Stream (ws ++ eo_print y ++ rest) false) = (x', Stream (" "%char :: rest) false) /\ same_fitness y x'.
Proof.
  intros Hb. unfold StreamModel.eo_read, StreamModel.eo_print. rewrite <- app_assoc. cbn [app].
  destruct (inv F y) eqn:Ei.
  - rewrite read_word_ok; auto using invalid_nospace; try discriminate; try reflexivity.
    rewrite text_eqb_refl. eexists; split; eauto. unfold same_fitness, get_fitness. rewrite Ei. auto.
  - destruct (Hf (rep F y)) as (Hn & Hs & Ht & Hp). rewrite read_word_ok; auto; try reflexivity.
    destruct (text_eqb_spec (fprint (rep F y)) invalid_tag); [congruence|].
    eexists; split; eauto. unfold same_fitness, get_fitness, extract. rewrite Ei, Hp. cbn [inv rep].
    destruct (fprint (rep F y)); congruence.
Qed.

(** histories *)
Notation step := (life_step fdefault fbad fprint fparse).
Lemma life_spec ops : forall x, get_fitness F (fold_left step ops x) = expected ops (get_fitness F x).
Proof.
  induction ops as [|o ops IH]; intros x; auto. cbn [fold_left expected]. rewrite IH.
  destruct o as [f| |y rest]; auto. f_equal. cbn [life_step].
  destruct (eo_read_print y x [] rest) as (x' & E & Hs); [constructor|]. cbn [app] in E. rewrite E. cbn [fst]. symmetry. apply Hs.
Qed.
Lemma lt_spec (ltb : F -> F -> bool) (a b : eo F) r : eo_lt F ltb a b = r ->
  r = match get_fitness F a, get_fitness F b with Ok x, Ok y => Ok (ltb x y) | _, _ => Throw end.
Proof. unfold eo_lt, get_fitness. destruct (inv F a), (inv F b); cbn; auto. Qed.
Lemma gt_spec (ltb : F -> F -> bool) (a b : eo F) r : eo_gt F ltb a b = r -> r = eo_lt F ltb b a \/
  (r = Throw /\ (get_fitness F a = Throw \/ get_fitness F b = Throw)).
Proof. unfold eo_lt, eo_gt, get_fitness. destruct (inv F a), (inv F b); cbn; auto. rewrite negb_involutive. auto. Qed.

Variable umax : N.
Section Vec.
Variable A : Type.
Variable aprint : A -> text.
Variable aread : stream -> option A * stream.
Hypothesis Ha : atom_text_ok aprint aread.
Notation vec_print := (vec_print F fprint A aprint).
Notation vec_read := (vec_read F fbad fparse A aread umax).
Lemma read_atoms_ok l rest :
  read_atoms A aread (List.length l) (Stream (" "%char :: flat_map (fun a => aprint a ++ [" "%char]) l ++ rest) false) =
  Ok (l, Stream (" "%char :: rest) false).
Proof.
  induction l as [|a l IH]; auto. cbn [List.length read_atoms flat_map].
  rewrite <- !app_assoc. change (" "%char :: ?x) with ([" "%char] ++ x).
  rewrite Ha; [|repeat constructor|reflexivity]. cbn [of_opt rbind app]. rewrite IH. auto.
Qed.
Lemma vec_restores : restores vec_print vec_read same_vec (fun x => (N.of_nat (List.length (atoms F A x)) <= umax)%N).
Proof.
  intros x old ws rest Hx Hb Hr. unfold StreamModel.vec_print, StreamModel.vec_read. rewrite <- !app_assoc.
  destruct (eo_read_print (base F A x) (base F A old) ws ([" "%char] ++ print_unsigned (N.of_nat (List.length (atoms F A x))) ++
     [" "%char] ++ flat_map (fun a => aprint a ++ [" "%char]) (atoms F A x) ++ rest) Hb) as (b & E & Hs).
  rewrite E. change (" "%char :: [" "%char] ++ ?x) with ([" "%char; " "%char] ++ x).
  rewrite read_unsigned_ok; auto; [|repeat constructor|reflexivity]. cbn [of_opt rbind]. rewrite Nnat.Nat2N.id.
  change ([" "%char] ++ ?x) with (" "%char :: x). rewrite read_atoms_ok. cbn [rbind]. exists [" "%char], (Vec F A b (atoms F A x)).
  split; [constructor; auto|]. split; [reflexivity|]. split; auto.
Qed.
End Vec.

Lemma bits_restores :
  restores (bits_print F fprint) (fun x s => Ok (bits_read F fbad fparse umax x s)) same_bits
    (fun x => loci F x <> [] /\ (N.of_nat (List.length (loci F x)) <= umax)%N).
Proof.
  intros x old ws rest [Hx Hu] Hb Hr. unfold bits_print, bits_read. rewrite <- !app_assoc.
  destruct (eo_read_print (bbase F x) (bbase F old) ws ([" "%char] ++ print_unsigned (N.of_nat (List.length (loci F x))) ++
     [" "%char] ++ map (fun b : bool => if b then "1"%char else "0"%char) (loci F x) ++ rest) Hb) as (b & E & Hs).
  rewrite E. change (" "%char :: [" "%char] ++ ?x) with ([" "%char; " "%char] ++ x).
  rewrite read_unsigned_ok; auto; [|repeat constructor|reflexivity].
  rewrite read_word_ok; auto.
  - exists [], (Bits F b (loci F x)). split; [constructor|]. split; [|split; auto]. cbn [failed app]. do 3 f_equal.
    rewrite map_map. rewrite <- (map_id (loci F x)) at 2. apply map_ext. intros []; reflexivity.
  - constructor; auto.
  - destruct (loci F x); [congruence|discriminate].
  - apply Forall_map. apply Forall_forall. intros [] _; reflexivity.
Qed.
(** with no bit, the next word is swallowed *)
Lemma bits_empty_swallows y old w rest : w <> [] -> Forall (fun c => is_space c = false) w -> clean_end rest -> (0 < umax)%N ->
  exists b, bits_read F fbad fparse umax old (Stream (bits_print F fprint (Bits F y []) ++ " "%char :: w ++ rest) false) =
    (Bits F b (map (fun c => if ascii_dec c "1" then true else false) w), Stream rest false).
Proof.
  intros Hn Hw Hr Hu. unfold bits_print, bits_read. rewrite <- !app_assoc. cbn [loci bbase List.length map].
  destruct (eo_read_print y (bbase F old) [] ([" "%char] ++ print_unsigned (N.of_nat 0) ++ [" "%char] ++ [] ++ " "%char :: w ++ rest)) as (b & E & Hs);
    [constructor|]. cbn [app] in E |- *. rewrite E.
  change (" "%char :: " "%char :: ?x) with ([" "%char; " "%char] ++ x) at 1.
  rewrite read_unsigned_ok; [|repeat constructor|lia|reflexivity].
  change (" "%char :: " "%char :: ?x) with ([" "%char; " "%char] ++ x) at 1.
  rewrite read_word_ok; auto; [|repeat constructor]. cbn [failed]. eauto.
Qed.
End EO.

Section Pop.
Variable I : Type.
Variable idefault : I.
Variable iprint : I -> text.
Variable iread : I -> stream -> res (I * stream).
Variable umax : N.
Variable same : I -> I -> Prop.
Variable good : I -> Prop.
Hypothesis Hi : restores iprint iread same good.

Lemma resize_length n l : List.length (resize I idefault n l) = n.
Proof. revert l. induction n; intros [|x l]; cbn; auto. Qed.
Lemma read_all_ok pop : Forall good pop -> forall olds ws rest, List.length olds = List.length pop -> blank ws ->
  exists ws' pop', blank ws' /\
    read_all I iread olds (Stream (ws ++ flat_map (fun x => iprint x ++ [nl]) pop ++ rest) false) = Ok (pop', Stream (ws' ++ rest) false) /\
    Forall2 same pop pop'.
Proof.
  induction 1 as [|x pop Hx Hg IH]; intros [|o olds] ws rest Hl Hb; try discriminate.
  - exists ws, []. cbn. auto.
  - cbn [flat_map read_all]. rewrite <- !app_assoc.
    destruct (Hi x o ws ([nl] ++ flat_map (fun x => iprint x ++ [nl]) pop ++ rest) Hx Hb) as (ws1 & x' & Hb1 & E & Hs); [reflexivity|].
    rewrite E. cbn [rbind]. rewrite app_assoc.
    destruct (IH olds (ws1 ++ [nl]) rest) as (ws2 & pop' & Hb2 & E2 & Hs2); [cbn in Hl; lia|auto with blank|].
    rewrite E2. cbn [rbind]. exists ws2, (x' :: pop'). auto.
Qed.
Lemma pop_restores : restores (pop_print I iprint) (pop_read I idefault iread umax) (Forall2 same)
  (fun pop => Forall good pop /\ (N.of_nat (List.length pop) <= umax)%N).
Proof.
  intros pop old ws rest [Hg Hu] Hb Hr. unfold pop_print, pop_read. rewrite <- !app_assoc.
  rewrite read_unsigned_ok; auto; [|reflexivity]. cbn [of_opt rbind]. rewrite Nnat.Nat2N.id.
  destruct (read_all_ok pop Hg (resize I idefault (List.length pop) old) [nl] rest) as (ws' & pop' & H1 & H2 & H3);
    [apply resize_length|auto with blank|]. eauto.
Qed.
End Pop.

(** numbers of any size as fitness or atoms, for the examples *)
Definition n_parse (w : text) : option N := match take_digits w with (Nil, _) => None | (u, _) => Some (N.of_uint u) end.
Definition n_read (s : stream) : option N * stream :=
  if failed s then (None, s)
  else match skip_ws (chars s) with
       | [] => (None, Stream [] true)
       | l => match take_digits l with (Nil, _) => (Some 0%N, Stream l true) | (u, r) => (Some (N.of_uint u), Stream r false) end
       end.
Lemma digit_text_not_invalid n : print_unsigned n <> invalid_tag.
Proof.
  intros E. pose proof (digits_text_digits (N.to_uint n)) as H. unfold print_unsigned in E. rewrite E in H.
  inversion H; subst. cbn in *. congruence.
Qed.
Lemma n_text_ok : fitness_text_ok print_unsigned n_parse.
Proof.
  intros n. split; [apply print_unsigned_ne|]. split; [apply digits_text_nospace|]. split; [apply digit_text_not_invalid|].
  unfold n_parse. rewrite <- (app_nil_r (print_unsigned n)). unfold print_unsigned. rewrite digits_text_take by exact I.
  pose proof (to_uint_ne n). pose proof (DecimalN.Unsigned.of_to n) as Ho. destruct (N.to_uint n); congruence.
Qed.
Lemma n_atom_ok : atom_text_ok print_unsigned n_read.
Proof.
  intros n ws rest Hb Hr. unfold n_read. cbn [failed chars].
  rewrite skip_ws_app, skip_ws_word; auto using print_unsigned_ne; [|apply digits_text_nospace].
  destruct (print_unsigned n ++ rest) as [|c0 l0] eqn:E; [apply app_eq_nil in E as [E _]; destruct (print_unsigned_ne n E)|].
  rewrite <- E. unfold print_unsigned. rewrite digits_text_take.
  - pose proof (to_uint_ne n) as Hne. pose proof (DecimalN.Unsigned.of_to n) as Ho.
    destruct (N.to_uint n) eqn:Eu; try congruence; rewrite Ho; auto.
  - destruct rest as [|c r]; auto. apply space_no_digit; auto.
Qed.

(** *** eoDualFitness *)
Lemma dual_not_restored V (vprint : V -> text) vread f rest :
  atom_text_ok vprint vread -> vprint (fst f) <> [] -> Forall (fun c => is_space c = false) (vprint (fst f)) ->
  dual_eo_read V vread (Stream (dual_print V vprint f ++ rest) false) = UB.
Proof.
  intros Hv Hn Hs. unfold dual_eo_read, dual_print. rewrite <- !app_assoc.
  change (vprint (fst f) ++ ?x) with ([] ++ vprint (fst f) ++ x). rewrite read_word_ok; auto; [|constructor|reflexivity].
  pose proof (Hv (fst f) [] [] (Forall_nil _) I) as E. cbn [app] in E. rewrite app_nil_r in E.
  unfold dual_read. rewrite E. reflexivity.
Qed.

(** *** eoState *)
Lemma is_prefix_app p l : is_prefix p l = true -> exists r, l = p ++ r.
Proof.
  revert l. induction p as [|a p IH]; intros [|b l] H; cbn in *; try discriminate; eauto.
  destruct (ascii_dec a b); [|discriminate]. apply IH in H as [r ->]. subst. eauto.
Qed.
Lemma find_app p l i : find p l = Some i -> exists a b, l = a ++ p ++ b.
Proof.
  revert i. induction l as [|c l IH]; intros i H; cbn [find] in H; destruct (is_prefix p _) eqn:E.
  - apply is_prefix_app in E as [r E]. exists [], r. auto.
  - discriminate.
  - apply is_prefix_app in E as [r E]. exists [], r. auto.
  - destruct (find p l) as [j|] eqn:Ej; [|discriminate]. destruct (IH j eq_refl) as (a & b & ->). exists (c :: a), b. auto.
Qed.
Lemma split_line_no_nl l : ~ In nl (fst (split_line l)).
Proof.
  induction l as [|c l IH]; cbn [split_line]; [intros []|]. destruct (ascii_dec c nl) as [|Hc]; [intros []|].
  destruct (split_line l) as [w r]. cbn [fst] in *. intros [H|H]; auto.
Qed.
Lemma getline_no_nl l str eof r : getline l = Some (str, eof, r) -> ~ In nl str.
Proof.
  unfold getline. destruct l as [|c l]; [discriminate|]. pose proof (split_line_no_nl (c :: l)) as H.
  destruct (split_line (c :: l)) as [w [r'|]]; intros E; inversion E; subst; auto.
Qed.
(** no line is ever recognised as a section header: the closing tag has a newline *)
Lemma never_section l str eof r : getline l = Some (str, eof, r) -> is_section str = None.
Proof.
  intros H. apply getline_no_nl in H. unfold is_section. destruct (find tag_so str); auto.
  destruct (find tag_sc str) as [e|] eqn:E; auto. exfalso. apply H. apply find_app in E as (a & b & ->).
  apply in_app_iff. right. apply in_app_iff. left. cbn. auto.
Qed.
Lemma split_line_rest l w r : split_line l = (w, Some r) -> List.length r < List.length l.
Proof.
  revert w r. induction l as [|c l IH]; intros w r H; cbn [split_line] in H; [discriminate|].
  destruct (ascii_dec c nl); [inversion H; subst; cbn; lia|]. destruct (split_line l) as [w' r'] eqn:E.
  inversion H; subst. specialize (IH _ _ eq_refl). cbn. lia.
Qed.
Lemma getline_rest l str eof r : getline l = Some (str, eof, r) -> (eof = true /\ r = []) \/ List.length r < List.length l.
Proof.
  unfold getline. destruct l as [|c l]; [discriminate|]. destruct (split_line (c :: l)) as [w [r'|]] eqn:E; intros H; inversion H; subst; auto.
  right. eapply split_line_rest; eauto.
Qed.
Section State.
Variable O : Type.
Variable oread : O -> stream -> O.
Lemma load_loop_nothing fuel : forall eof l st, List.length l + (if eof : bool then 0 else 1) < S fuel ->
  load_loop O oread fuel None eof l st = Ok st.
Proof.
  induction fuel as [|fuel IH]; intros eof l st Hl.
  - destruct eof; auto. lia.
  - cbn [load_loop]. destruct eof; auto. destruct (getline l) as [[[str eof'] r]|] eqn:E.
    + rewrite (never_section _ _ _ _ E). apply IH. apply getline_rest in E as [[-> ->]|Hr]; [cbn; lia|destruct eof'; lia].
    + apply IH. cbn. lia.
Qed.
Lemma load_nothing l st : load O oread l st = match l with [] => Throw | _ => Ok st end.
Proof.
  unfold load. destruct (getline l) as [[[str eof] r]|] eqn:E.
  - destruct l as [|c l]; [discriminate|]. rewrite (never_section _ _ _ _ E). apply load_loop_nothing.
    apply getline_rest in E as [[-> ->]|Hr]; [cbn; lia|destruct eof; lia].
  - destruct l as [|c l]; auto. unfold getline in E. destruct (split_line (c :: l)) as [w [r|]]; discriminate.
Qed.

(** names *)
Lemma existsb_in name names : existsb (text_eqb name) names = true <-> In name names.
Proof.
  rewrite existsb_exists. split.
  - intros (x & Hx & E). destruct (text_eqb_spec name x); [subst; auto|discriminate].
  - intros H. exists name. split; auto. apply text_eqb_refl.
Qed.
Fixpoint tried (fuel : nat) (cls : text) (count : N) (name : text) : list text :=
  match fuel with 0 => [name] | S f => name :: tried f cls (N.succ count) (cls ++ print_unsigned count) end.
Lemma fresh_name_spec fuel names cls : forall count name,
  match fresh_name fuel names cls count name with
  | Ok n => ~ In n names /\ In n (tried fuel cls count name)
  | NoDraw => incl (tried fuel cls count name) names
  | _ => False
  end.
Proof.
  induction fuel as [|fuel IH]; intros count name; cbn [fresh_name tried].
  - destruct (existsb (text_eqb name) names) eqn:E.
    + apply existsb_in in E. intros x [<-|[]]; auto.
    + split; [|left; auto]. intros H. apply existsb_in in H. congruence.
  - destruct (existsb (text_eqb name) names) eqn:E.
    + apply existsb_in in E. specialize (IH (N.succ count) (cls ++ print_unsigned count)).
      destruct (fresh_name _ _ _ _ _) as [n| | |]; auto.
      * destruct IH. split; auto. right. auto.
      * intros x [<-|Hx]; auto.
    + split; [|left; auto]. intros H. apply existsb_in in H. congruence.
Qed.
Lemma tried_in fuel cls : forall count name x, In x (tried fuel cls count name) ->
  x = name \/ exists k, (count <= k)%N /\ x = cls ++ print_unsigned k.
Proof.
  induction fuel as [|fuel IH]; intros count name x H; cbn [tried] in H.
  - destruct H as [<-|[]]; auto.
  - destruct H as [<-|H]; auto. apply IH in H as [->|(k & Hk & ->)]; right; eexists; split; eauto; lia.
Qed.
Lemma tried_nodup fuel cls : forall count name,
  (name = cls \/ exists k, (k < count)%N /\ name = cls ++ print_unsigned k) -> NoDup (tried fuel cls count name).
Proof.
  induction fuel as [|fuel IH]; intros count name H; cbn [tried].
  - constructor; [intros []|constructor].
  - constructor.
    + intros Hin. apply tried_in in Hin as [E|(k & Hk & E)].
      * destruct H as [->|(k & Hk & ->)].
        -- rewrite <- (app_nil_r cls) in E at 1. apply app_inv_head in E. symmetry in E. apply print_unsigned_ne in E. auto.
        -- apply app_inv_head, print_unsigned_inj in E. lia.
      * destruct H as [->|(k' & Hk' & ->)].
        -- rewrite <- (app_nil_r cls) in E at 1. apply app_inv_head in E. symmetry in E. apply print_unsigned_ne in E. auto.
        -- apply app_inv_head, print_unsigned_inj in E. lia.
    + apply IH. right. exists count. split; auto. lia.
Qed.
Lemma tried_length fuel cls : forall count name, List.length (tried fuel cls count name) = S fuel.
Proof. induction fuel; intros; cbn; auto. Qed.
Lemma object_name_class names cls : exists n, object_name names (Some cls) = Ok n /\ ~ In n names /\
  (n = cls \/ exists k, n = cls ++ print_unsigned k).
Proof.
  cbn [object_name]. pose proof (fresh_name_spec (S (List.length names)) names cls 1 cls) as H.
  destruct (fresh_name (S (List.length names)) names cls 1 cls) as [n| | |]; try contradiction.
  - destruct H as [H1 H2]. exists n. split; auto. split; auto. apply tried_in in H2 as [->|(k & _ & ->)]; eauto.
  - exfalso. apply NoDup_incl_length in H.
    + rewrite tried_length in H. lia.
    + apply tried_nodup. auto.
Qed.
End State.

Section Register.
Variable O : Type.
(** every name is free of leading digit, or the decimal text of a smaller size *)
Definition named (st : state O) : Prop :=
  NoDup (map fst st) /\
  forall name, In name (map fst st) -> (exists c r, name = c :: r /\ digit c = None) \/
    exists k, name = print_unsigned (N.of_nat k) /\ k < List.length st.
Lemma print_unsigned_head n c r : print_unsigned n = c :: r -> digit c <> None.
Proof. intros E. pose proof (digits_text_digits (N.to_uint n)) as H. unfold print_unsigned in E. rewrite E in H. inversion H; auto. Qed.
Lemma NoDup_snoc {T} (l : list T) x : NoDup l -> ~ In x l -> NoDup (l ++ [x]).
Proof. intros H1 H2. apply NoDup_rev in H1. rewrite <- (rev_involutive (l ++ [x])). apply NoDup_rev. rewrite rev_app_distr. constructor; auto. rewrite <- in_rev. auto. Qed.
Lemma register_ok st cls o : named st -> reg_ok cls ->
  exists name, register O st cls o = Ok (st ++ [(name, o)]) /\ ~ In name (map fst st) /\ named (st ++ [(name, o)]).
Proof.
  intros [Hn Hd] Hc. unfold register.
  assert (H : exists n, object_name (map fst st) cls = Ok n /\ ~ In n (map fst st) /\
    ((exists c r, n = c :: r /\ digit c = None) \/ exists k, n = print_unsigned (N.of_nat k) /\ k < S (List.length st))).
  { destruct cls as [cls|].
    - destruct (object_name_class (map fst st) cls) as (n & E & Hi & Hk). exists n. split; auto. split; auto. left.
      destruct Hc as (a & r & -> & Ha). destruct Hk as [->|(k & ->)]; eauto. exists a. eexists. split; [reflexivity|auto].
    - cbn [object_name]. rewrite map_length. eexists. split; [reflexivity|]. split.
      + intros Hi. destruct (Hd _ Hi) as [(c & r & E & Ec)|(k & E & Hk)].
        * apply print_unsigned_head in E. auto.
        * apply print_unsigned_inj in E. lia.
      + right. exists (List.length st). split; auto. }
  destruct H as (n & E & Hi & Hk). exists n. rewrite E. cbn [rbind].
  destruct (existsb (text_eqb n) (map fst st)) eqn:Ee; [apply existsb_in in Ee; contradiction|].
  split; auto. split; auto. split.
  - rewrite map_app. cbn [map fst]. apply NoDup_snoc; auto.
  - intros name Hin. rewrite map_app in Hin. rewrite app_length. cbn [List.length map fst] in *.
    apply in_app_iff in Hin as [Hin|[<-|[]]].
    + destruct (Hd _ Hin) as [?|(k & ? & ?)]; auto. right. exists k. split; auto. lia.
    + destruct Hk as [?|(k & ? & ?)]; auto. right. exists k. split; auto. lia.
Qed.
Lemma register_all_ok l : forall st, named st -> Forall (fun e => reg_ok (fst e)) l ->
  exists st', register_all O l st = Ok st' /\ NoDup (map fst st') /\ map snd st' = map snd st ++ map snd l.
Proof.
  induction l as [|[cls o] l IH]; intros st Hs H.
  - exists st. cbn. rewrite app_nil_r. split; auto. split; auto. apply Hs.
  - inversion H as [|? ? Hc Hl]; subst. destruct (register_ok st cls o Hs Hc) as (n & E & _ & Hs').
    cbn [StreamModel.register_all]. rewrite E. cbn [rbind]. destruct (IH _ Hs' Hl) as (st' & E' & Hn & Hm).
    exists st'. split; auto. split; auto. rewrite Hm, map_app. cbn. rewrite <- app_assoc. auto.
Qed.
End Register.

Lemma register_all_distinct O (l : list (option text * O)) : forall st st', NoDup (map fst st) ->
  register_all O l st = Ok st' -> NoDup (map fst st') /\ map snd st' = map snd st ++ map snd l.
Proof.
  induction l as [|[cls o] l IH]; intros st st' Hn H; cbn [register_all] in H.
  - assert (st = st') as -> by congruence. rewrite app_nil_r. auto.
  - apply rbind_ok in H as (st1 & H1 & H). unfold register in H1. apply rbind_ok in H1 as (name & _ & H1).
    destruct (existsb (text_eqb name) (map fst st)) eqn:E; [discriminate|].
    assert (st1 = st ++ [(name, o)]) as -> by congruence. apply IH in H as [A B].
    + split; auto. rewrite B, map_app, <- app_assoc. reflexivity.
    + rewrite map_app. apply NoDup_snoc; auto. intros Hi. apply existsb_in in Hi. cbn [fst] in Hi. congruence.
Qed.
Lemma bits_read_failed F (fbad : F) fparse umax x s : failed (snd (bits_read F fbad fparse umax x s)) = true ->
  loci F (fst (bits_read F fbad fparse umax x s)) = loci F x.
Proof.
  unfold bits_read. destruct (eo_read F fbad fparse (bbase F x) s) as [b s1].
  destruct (read_unsigned umax s1) as [n s2]. destruct (read_word s2) as [w s3]. cbn. intros ->. reflexivity.
Qed.
