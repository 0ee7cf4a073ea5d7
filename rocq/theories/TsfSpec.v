(** Specification side of C33 and C34: lines, records and values of a touchstone text. *)
From mathcomp Require Import all_ssreflect all_algebra.
From Coq Require Import String Ascii.
From Verif Require Import Base ConvModel UtilModel TsfModel.
Set Implicit Arguments.
Unset Strict Implicit.
Unset Printing Implicit Defensive.
Import Order.TTheory GRing.Theory Num.Theory.
Local Open Scope string_scope.
Local Open Scope ring_scope.
Local Open Scope seq_scope.

(** ** the kinds of lines, by their first character that is not white space *)
Definition first_char (l : string) : option ascii := if strip l is String a _ then Some a else None.
Definition is_comment (l : string) : bool := first_char l == Some "!"%char.
Definition is_option (l : string) : bool := first_char l == Some "#"%char.
Definition is_blank (l : string) : bool := first_char l == None.
Definition is_data (l : string) : bool := ~~ [|| is_comment l, is_option l | is_blank l].
(** the text of an option line after the '#' *)
Definition option_text (l : string) : string := if strip l is String _ s then s else "".
(** a comment without '!' in it, and with a blank after its '!' *)
Definition plain_comment (l : string) : bool :=
  if strip l is String a t then
    [&& a == "!"%char, "!"%char \notin list_ascii_of_string t & (if t is String b _ then b == " "%char else true)]
  else false.

Section Spec.
Variable C : numClosedFieldType.
(** ** records: a line with an odd number of values starts a new one.  The result is the
    values before the first record, and the records: the frequency and the other values *)
Fixpoint group (vs : seq (seq C)) : seq C * seq (C * seq C) :=
  if vs is v :: vs' then
    let: (p, r) := group vs' in
    if odd (size v) then ([::], (head 0 v, behead v ++ p) :: r) else (v ++ p, r)
  else ([::], [::]).
(** the coefficient written as the numbers x y *)
Definition coef (expideg pow10_20 : C -> C) (fm : string) (x y : C) : C :=
  if fm == "MA" then x * expideg y
  else if fm == "DB" then pow10_20 x * expideg y
  else x + 'i * y.
(** the matrix of a record of 2 N^2 numbers, row by row *)
Definition record_mx (expideg pow10_20 : C -> C) (fm : string) (N : nat) (v : seq C) : 'M[C]_N :=
  \matrix_(i, j) coef expideg pow10_20 fm v`_(2 * (i * N + j)) v`_(2 * (i * N + j)).+1.
(** a frequency unit, in Hz *)
Definition hz (U : string) : option C :=
  if U == "HZ" then Some 1 else if U == "KHZ" then Some (10%:R ^+ 3)
  else if U == "MHZ" then Some (10%:R ^+ 6) else if U == "GHZ" then Some (10%:R ^+ 9) else None.
End Spec.

(** ** the option line: the words that are names, and the last one of a kind (d: none) *)
Definition type_names := [:: "S"; "Y"; "Z"].
Definition format_names := [:: "MA"; "RI"; "DB"].
Definition freq_units := [:: "HZ"; "KHZ"; "MHZ"; "GHZ"].
Definition is_name (w : string) : bool := w \in type_names ++ format_names ++ freq_units.
Definition last_in (l : seq string) (d : string) (ws : seq string) : string := last d [seq w <- ws | w \in l].

(** ** port names: the last "!PORTS a, b, ..." among the comments before the first data line *)
Definition header (ls : seq string) : seq string := take (seq.find is_data ls) ls.
Definition names_in (l : string) : option (seq string) :=
  if is_comment l then omap (fun r => map strip (split_on ","%char r)) (find_rest "!PORTS " (strip l)) else None.
Definition ports_of (ls : seq string) : option (seq string) := ohead (seq.rev (pmap names_in (header ls))).
