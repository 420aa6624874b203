(** C33: printing then parsing the JSON-like format. *)
From Coq Require Import Arith Lia Ascii Bool NArith String List.
Import ListNotations.
From Verif Require Import JsonModel JsonSpec JsonProofs.

Definition txt (s : string) : text := list_ascii_of_string s.

(** Every value built from strings, arrays and objects whose strings and keys are properly
    escaped is read back from its printed text. *)
Theorem C33_round_trip : forall v fuel,
  printable v -> 2 * length (print v) <= fuel -> parse fuel (print v) = Parsed v.
Proof. exact parse_print. Qed.
Print Assumptions C33_round_trip.

(** The same for any layout of the value: any blanks between the parts, members in any order,
    the last member of a key counting. *)
Theorem C33_any_layout : forall v t before after fuel,
  laid v t -> blanks before -> blanks after -> 2 * length t <= fuel ->
  parse fuel (before ++ t ++ after) = Parsed v.
Proof. exact (fun v t b0 b1 fuel => parse_laid v t b0 b1 fuel). Qed.
Print Assumptions C33_any_layout.

(** Printed texts are layouts (so [C33_any_layout] covers them). *)
Theorem C33_printed_is_layout : forall v, printable v ->
  exists t tail, print v = t ++ tail /\ laid v t /\ blanks tail.
Proof. exact print_laid. Qed.
Print Assumptions C33_printed_is_layout.

(** The entries of an object are a map: sorted keys, and for each key the last value given. *)
Theorem C33_objects_are_maps : forall kvs,
  sorted_keys (map_of kvs) /\
  forall k, lookup k (map_of kvs) = last_for k kvs None.
Proof. intros kvs. split; [apply map_of_is_map|apply map_of_lookup]. Qed.
Print Assumptions C33_objects_are_maps.

(** Two different printable values are never printed the same. *)
Theorem C33_print_injective : forall v w,
  printable v -> printable w -> print v = print w -> v = w.
Proof.
  intros v w Hv Hw E.
  pose proof (parse_print v _ Hv (le_n _)) as P.
  pose proof (parse_print w _ Hw (le_n _)) as Q.
  rewrite E in P. rewrite P in Q. congruence.
Qed.
Print Assumptions C33_print_injective.

(** For a string alone the condition is exact: it comes back iff it is properly escaped. *)
Theorem C33_string_iff_escaped : forall s fuel,
  1 <= fuel -> (parse fuel (print (JStr s)) = Parsed (JStr s) <-> well_escaped s = true).
Proof.
  intros s fuel Hf. destruct fuel as [|f]; [lia|]. split.
  - intros E. destruct (well_escaped s) eqn:W; [reflexivity|exfalso].
    unfold parse in E. cbn [print] in E.
    pose proof (parse_right_turn f [] [] (print_string s) []) as T.
    cbn [app length] in T. rewrite app_nil_r in T. rewrite T in E by (constructor || reflexivity).
    clear T. cbn zeta in E. cbn [print_string hd] in E. cbn [Ascii.eqb quote_ch] in E.
    cbn [Bool.eqb] in E. fold quote_ch in E. fold (print_string s) in E.
    pose proof (parse_string_wrong s W) as N.
    destruct (parse_string (print_string s) 0) as [[t e]| |]; try discriminate.
    cbn [obnd fst snd] in E. destruct (ignore _ e); try discriminate.
    cbn in E. injection E as E. apply (N e). rewrite E. reflexivity.
  - intros W. unfold parse. cbn [print].
    pose proof (parse_right_turn f [] [] (print_string s) []) as T.
    cbn [app length] in T. rewrite app_nil_r in T. rewrite T by (constructor || reflexivity).
    clear T. cbn zeta. cbn [print_string hd]. cbn [Ascii.eqb quote_ch].
    cbn [Bool.eqb]. fold quote_ch. fold (print_string s).
    pose proof (parse_string_ok s [] [] W) as P. cbn [app length] in P.
    rewrite app_nil_r in P. rewrite P. cbn [obnd fst snd].
    pose proof (ignore_ok [] (print_string s) []) as I. cbn [app length] in I.
    rewrite app_nil_r in I. cbn [Nat.add]. rewrite I by (constructor || reflexivity).
    reflexivity.
Qed.
Print Assumptions C33_string_iff_escaped.

(** The printer does not escape: a string holding a quote is cut there. *)
Theorem C33_quote_outside : exists s fuel,
  parse fuel (print (JStr s)) = Parsed (JStr (txt "say ")) /\ s <> txt "say ".
Proof. exists (txt "say ""hi"""), 100. split; [vm_compute; reflexivity|discriminate]. Qed.
Print Assumptions C33_quote_outside.

(** A key ending with a backslash makes the parser read outside the text. *)
Theorem C33_backslash_outside : exists v,
  forall fuel, 10 <= fuel -> parse fuel (print v) = Undefined.
Proof.
  exists (JStr [back_ch]). intros fuel H. destruct fuel as [|f]; [lia|]. reflexivity.
Qed.
Print Assumptions C33_backslash_outside.

(** Valid JSON with a space before the colon makes the parser read outside the text, while the
    same text with the space after the colon is read. *)
Theorem C33_space_before_colon_outside : forall fuel,
  10 <= fuel ->
  parse fuel (txt "{""a"" :""b""}") = Undefined /\
  parse fuel (txt "{""a"": ""b""}") = Parsed (JObj [(txt "a", JStr (txt "b"))]).
Proof.
  intros fuel H. do 10 (destruct fuel as [|fuel]; [lia|]). split; reflexivity.
Qed.
Print Assumptions C33_space_before_colon_outside.

(** An array holding anything but strings, arrays and objects (a number, a tab) is never
    finished. *)
Theorem C33_number_in_array_outside : forall fuel,
  parse fuel (txt "[1]") = OutOfFuel.
Proof.
  assert (forall fuel acc, items (txt "[1]") fuel acc 1 = OutOfFuel) as H.
  { induction fuel as [|f IH]; intros acc; [reflexivity|]. rewrite items_S.
    cbn [txt list_ascii_of_string]. destruct f as [|f]; [reflexivity|].
    exact (IH acc). }
  intros [|f]; [reflexivity|]. unfold parse.
  pose proof (parse_right_turn f [] [] (txt "[1]") []) as T.
  cbn [app length] in T. rewrite app_nil_r in T. rewrite T by (constructor || reflexivity).
  cbn zeta. cbn [txt list_ascii_of_string hd]. cbn [Ascii.eqb quote_ch]. cbn [Bool.eqb].
  change (ignore ["["; "1"; "]"]%char (0 + 1)) with (@Parsed nat 1). cbn [obnd].
  change (["["; "1"; "]"]%char) with (txt "[1]"). rewrite H. reflexivity.
Qed.
Print Assumptions C33_number_in_array_outside.

(** A truncated text is read past its end. *)
Theorem C33_truncated_outside : forall fuel,
  10 <= fuel -> parse fuel (txt "{""a"":""b""") = Undefined.
Proof.
  intros fuel H. do 10 (destruct fuel as [|fuel]; [lia|]). reflexivity.
Qed.
Print Assumptions C33_truncated_outside.

(** A nested value with escaped quotes, commas, brackets and blanks inside its strings meets
    the hypotheses and comes back. *)
Example C33_example :
  let v := JObj [(txt "a, b", JArr [JStr (txt "[x} \\\""q"); JObj []; JArr []]);
                 (txt "k", JStr (txt ""))] in
  printable v /\ parse 200 (print v) = Parsed v /\
  print v = txt "{""a, b"":[""[x} \\\""q"", {}" ++ [newline_ch] ++ txt ", []" ++ [newline_ch]
            ++ txt "]" ++ [newline_ch] ++ txt ", ""k"":""""}" ++ [newline_ch].
Proof. vm_compute. repeat split. Qed.
