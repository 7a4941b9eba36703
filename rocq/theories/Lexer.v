(** The lexer: bluejay-parser/src/lexer/logos_lexer.rs, logos_lexer/string_lexer.rs and logos_lexer/block_string_lexer.rs.
    The lexers are generated by the crate logos from regular expressions; what is modelled is its documented meaning: at
    each position the longest match among the patterns is taken, text matching a skip pattern is dropped, and if no pattern
    matches an error token of at least one character is produced. How many characters an error token swallows is not
    documented: it is the parameter [recover], over which all theorems quantify. *)
From Verif Require Import Base Decimal10.

(** ** Characters *)
Definition c_quote : N := 34.      (* quotation mark *)
Definition c_backslash : N := 92.  (* backslash *)
Definition c_newline : N := 10.
Definition c_return : N := 13.
Definition c_tab : N := 9.
Definition c_space : N := 32.
Definition between (a b c : N) : bool := N.leb a c && N.leb c b.
(** [_a-zA-Z] *)
Definition is_name_start (c : N) : bool := N.eqb c 95 || between 65 90 c || between 97 122 c.
(** [_0-9a-zA-Z] *)
Definition is_name_char (c : N) : bool := is_name_start c || is_digit c.
(** [0-9A-Fa-f] *)
Definition is_hex (c : N) : bool := is_digit c || between 65 70 c || between 97 102 c.
(** byte order mark, tab, space, newline, return, comma (logos_lexer.rs:24) *)
Definition is_blank (c : N) : bool :=
  N.eqb c 65279 || N.eqb c c_tab || N.eqb c c_space || N.eqb c c_newline || N.eqb c c_return || N.eqb c 44.
Definition is_line_end (c : N) : bool := N.eqb c c_newline || N.eqb c c_return.
(** the number of bytes of a scalar value in UTF-8 *)
Definition utf8_len (c : N) : nat :=
  if N.ltb c 128 then 1 else if N.ltb c 2048 then 2 else if N.ltb c 65536 then 3 else 4.
(** [str::len] *)
Definition blen (s : text) : nat := fold_right (fun c n => utf8_len c + n) 0 s.
(** [char::from_u32(..).is_some()] *)
Definition is_scalar (c : N) : bool := N.leb c 55295 || between 57344 1114111 c.

Fixpoint take_while (p : N -> bool) (s : text) : text :=
  match s with c :: s' => if p c then c :: take_while p s' else [] | [] => [] end.
Fixpoint drop_while (p : N -> bool) (s : text) : text :=
  match s with c :: s' => if p c then drop_while p s' else s | [] => [] end.
Fixpoint strip_prefix (l s : text) : option text :=
  match l, s with
  | [], _ => Some s
  | x :: l', y :: s' => if N.eqb x y then strip_prefix l' s' else None
  | _, _ => None
  end.

(** ** Tokens *)
(** lexical_token/punctuator.rs:4-19 *)
Inductive punct := PBang | PAmpersand | POpenRound | PCloseRound | PEllipse | PColon | PEquals | PAt
                 | POpenSquare | PCloseSquare | POpenBrace | PCloseBrace | PPipe.
(** lexical_token.rs:17-25; a float is its bit pattern *)
Inductive token := TkPunct (p : punct) | TkName (n : name) | TkVar (n : name) | TkInt (z : Z) | TkFloat (b : N) | TkStr (s : text).
(** lex_error.rs:4-16; spans are byte offsets *)
Inductive string_error := InvalidUnicodeEscape (start stop : nat) | InvalidCharacters (start stop : nat).
Inductive lex_error := UnrecognizedToken | IntegerValueTooLarge | FloatValueTooLarge | StringValueInvalid (es : list string_error)
  | OutOfFuel (* never produced, see the theorems *).

(** the single-character punctuators (logos_lexer.rs:29-55) *)
Definition punct_of (c : N) : option punct :=
  if N.eqb c 33 then Some PBang else if N.eqb c 38 then Some PAmpersand
  else if N.eqb c 40 then Some POpenRound else if N.eqb c 41 then Some PCloseRound
  else if N.eqb c 58 then Some PColon else if N.eqb c 61 then Some PEquals
  else if N.eqb c 64 then Some PAt else if N.eqb c 91 then Some POpenSquare
  else if N.eqb c 93 then Some PCloseSquare else if N.eqb c 123 then Some POpenBrace
  else if N.eqb c 125 then Some PCloseBrace else if N.eqb c 124 then Some PPipe else None.

(** ** Numbers *)
(** [i32::from_str] on text of the shape of an IntValue: the number, if it is written with ASCII digits and fits *)
Definition parse_i32 (s : text) : option Z :=
  let '(neg, ds) := match s with c :: s' => if N.eqb c 45 then (true, s') else (false, s) | [] => (false, []) end in
  if forallb is_digit ds && negb (match ds with [] => true | _ => false end) then
    let z := if neg then (- Z.of_N (digits_value ds))%Z else Z.of_N (digits_value ds) in
    if Z.leb (-2147483648) z && Z.leb z 2147483647 then Some z else None
  else None.

(** [u32::from_str_radix(_, 16)] on hexadecimal digits (at most eight, so no overflow) *)
Definition hex_value (c : N) : N := if is_digit c then c - 48 else if N.leb c 70 then c - 55 else c - 87.
Definition hex_number (s : text) : N := fold_left (fun acc c => (acc * 16 + hex_value c)%N) s 0%N.

Section Lexer.
  (** length of an error token, at least one character is always consumed *)
  Variable recover : text -> nat.
  (** [\d] in the patterns of logos may match further, non-ASCII, decimal digits *)
  Variable other_digit : N -> bool.
  (** [f64::from_str] *)
  Variable parse_f64 : text -> option N.
  (** [Extras::graphql_ruby_compatibility] *)
  Variable compat : bool.

  Definition digit_class (c : N) : bool := is_digit c || (N.leb 128 c && other_digit c).
  Definition after_error (s : text) : text := skipn (Nat.max 1 (recover s)) s.

  (** subpattern [intpart] (:18): the match and the rest *)
  Definition scan_unsigned (s : text) : option (text * text) :=
    match s with
    | c :: s' => if N.eqb c 48 then Some ([c], s')
                 else if between 49 57 c then Some (c :: take_while digit_class s', drop_while digit_class s') else None
    | [] => None
    end.
  Definition scan_int (s : text) : option (text * text) :=
    match s with
    | c :: s' => if N.eqb c 45 then match scan_unsigned s' with Some (l, r) => Some (c :: l, r) | None => None end
                 else scan_unsigned s
    | [] => None
    end.
  (** one or more digits *)
  Definition scan_digits (s : text) : option (text * text) :=
    match take_while digit_class s with [] => None | l => Some (l, drop_while digit_class s) end.
  (** subpattern [decimalpart] (:19), possibly absent *)
  Definition scan_decimal (s : text) : text * text :=
    match s with
    | c :: s' => if N.eqb c 46 then match scan_digits s' with Some (l, r) => (c :: l, r) | None => ([], s) end else ([], s)
    | [] => ([], s)
    end.
  (** subpattern [exponentpart] (:20), possibly absent *)
  Definition scan_exponent (s : text) : text * text :=
    match s with
    | c :: s' =>
        if N.eqb c 101 || N.eqb c 69 then
          match s' with
          | d :: s'' => if N.eqb d 43 || N.eqb d 45
                        then match scan_digits s'' with Some (l, r) => (c :: d :: l, r) | None => ([], s) end
                        else match scan_digits s' with Some (l, r) => (c :: l, r) | None => ([], s) end
          | [] => ([], s)
          end
        else ([], s)
    | [] => ([], s)
    end.
  Definition is_trailing (c : N) : bool := is_name_char c || N.eqb c 46.
  (** [validate_number_no_trailing_name_start] (:82-104) followed by [k] on success *)
  Definition no_trailing (rest : text) (k : token + lex_error) : (token + lex_error) * text :=
    if compat then (k, rest)
    else match take_while is_trailing rest with
         | [] => (k, rest)
         | _ => (inr UnrecognizedToken, drop_while is_trailing rest)
         end.
  (** IntValue, FloatValue (:65-74) with [parse_integer], [parse_float] (:106-124) *)
  Definition lex_number (s : text) : (token + lex_error) * text :=
    match scan_int s with
    | None => (inr UnrecognizedToken, after_error s)
    | Some (ip, r1) =>
        let '(dp, r2) := scan_decimal r1 in
        let '(ep, r3) := scan_exponent r2 in
        match dp ++ ep with
        | [] => no_trailing r3 (match parse_i32 ip with Some z => inl (TkInt z) | None => inr IntegerValueTooLarge end)
        | _ => no_trailing r3 (match parse_f64 (ip ++ dp ++ ep) with Some b => inl (TkFloat b) | None => inr FloatValueTooLarge end)
        end
    end.

  (** ** string_lexer.rs *)
  (** what the token enumeration (:9-60) with its callbacks (:62-101) says about the text at hand *)
  Inductive string_item :=
  | SIChars (l : text)                      (* characters to append *)
  | SIBadUnicode (start stop : nat)         (* InvalidUnicodeEscapeSequence, offsets within the match *)
  | SIBad                                   (* Err(()) *)
  | SINewline | SIReturn
  | SIQuote.
  Definition is_source_char (c : N) : bool :=
    negb (N.eqb c c_backslash || N.eqb c c_quote || N.eqb c c_newline || N.eqb c c_return).
  (** [fixedunicode] (:11): the four hexadecimal digits and the rest *)
  Definition scan_fixed (s : text) : option (text * text) :=
    match s with
    | b :: u :: h1 :: h2 :: h3 :: h4 :: r =>
        if N.eqb b c_backslash && N.eqb u 117 && is_hex h1 && is_hex h2 && is_hex h3 && is_hex h4
        then Some ([h1; h2; h3; h4], r) else None
    | _ => None
    end.
  (** [parse_surrogate_pair_escaped_unicode] (:76-101) *)
  Definition surrogate_pair (lead trail : N) : string_item :=
    if between 55296 56319 lead then
      if between 56320 57343 trail then
        let raw := ((lead - 55296) * 1024 + (trail - 56320) + 65536)%N in
        if is_scalar raw then SIChars [raw] else SIBadUnicode 0 12
      else SIBadUnicode 6 12
    else if is_scalar lead then
           if is_scalar trail then SIChars [lead; trail] else SIBadUnicode 6 12
         else SIBadUnicode 0 6.
  (** the escape tokens; [s] starts with a backslash *)
  Definition scan_escape (s : text) : string_item * text :=
    match scan_fixed s with
    | Some (h, r) =>
        match scan_fixed r with
        | Some (h', r') => (surrogate_pair (hex_number h) (hex_number h'), r')
        | None => ((if is_scalar (hex_number h) then SIChars [hex_number h] else SIBadUnicode 0 6), r)   (* :70-74 *)
        end
    | None =>
        match strip_prefix [c_backslash; 117; 123]%N s with
        | Some r =>
            match take_while is_hex r, drop_while is_hex r with
            | h :: hs, d :: r' =>
                if N.eqb d 125 then
                  let n := length (h :: hs) + 4 in                                            (* :62-68 *)
                  ((if Nat.ltb n 13 && is_scalar (hex_number (h :: hs)) then SIChars [hex_number (h :: hs)] else SIBadUnicode 0 n), r')
                else (SIBad, after_error s)
            | _, _ => (SIBad, after_error s)
            end
        | None =>
            match s with
            | _ :: e :: r =>
                if N.eqb e 34 then (SIChars [34%N], r) else if N.eqb e 92 then (SIChars [92%N], r)
                else if N.eqb e 47 then (SIChars [47%N], r) else if N.eqb e 98 then (SIChars [8%N], r)
                else if N.eqb e 102 then (SIChars [12%N], r) else if N.eqb e 110 then (SIChars [10%N], r)
                else if N.eqb e 114 then (SIChars [13%N], r) else if N.eqb e 116 then (SIChars [9%N], r)
                else (SIBad, after_error s)
            | _ => (SIBad, after_error s)
            end
        end
    end.
  Definition scan_string (c : N) (s' : text) : string_item * text :=
    let s := c :: s' in
    if N.eqb c c_quote then (SIQuote, s')
    else if N.eqb c c_newline then (SINewline, s')
    else if N.eqb c c_return then (SIReturn, s')
    else if N.eqb c c_backslash then scan_escape s
    else (SIChars (take_while is_source_char s), drop_while is_source_char s).
  (** [parse] (:106-185). [pos]: byte offset of [s]; [acc], [errs] the state of the loop. *)
  Fixpoint lex_string (fuel : nat) (pos : nat) (s acc : text) (errs : list string_error) {struct fuel} : (token + lex_error) * text :=
    match s with
    | [] => (inr UnrecognizedToken, [])
    | c :: s' =>
        match fuel with
        | 0 => (inr OutOfFuel, [])
        | S fuel' =>
            let '(it, r) := scan_string c s' in
            let stop := pos + (blen s - blen r) in
            match it with
            | SIQuote => ((match errs with [] => inl (TkStr acc) | _ => inr (StringValueInvalid errs) end), r)
            | SIChars l => lex_string fuel' stop r (acc ++ l) errs
            | SIBadUnicode a b => lex_string fuel' stop r acc (errs ++ [InvalidUnicodeEscape (pos + a) (pos + b)])
            | SIBad => lex_string fuel' stop r acc (errs ++ [InvalidCharacters pos stop])
            | SINewline => if compat then lex_string fuel' stop r (acc ++ [c]) errs
                           else lex_string fuel' stop r acc (errs ++ [InvalidCharacters pos stop])
            | SIReturn => if compat then lex_string fuel' stop r (acc ++ [c]) errs
                          else lex_string fuel' stop r acc (errs ++ [InvalidCharacters pos stop])
            end
        end
    end.

  (** ** block_string_lexer.rs *)
  (** the tokens kept (:7-28); [BEscaped] is EscapedBlockQuote *)
  Inductive block_token := BChars (s : text) | BSpace (c : N) | BEscaped.
  Definition is_block_char (c : N) : bool :=
    negb (N.eqb c c_quote || N.eqb c c_backslash || N.eqb c c_newline || N.eqb c c_return).
  Definition is_indent (c : N) : bool := N.eqb c c_space || N.eqb c c_tab.
  (** [parse] (:33-57): the lines up to the closing quotes and the rest; [None]: no closing quotes.
      [line] and [lines] are the tokens of the current line and the previous lines. Every character starts a token, so
      the inner lexer makes no errors. *)
  Inductive block_result := BlockLines (lines : list (list block_token)) (rest : text) | BlockUnterminated | BlockFuel.
  Fixpoint lex_block (fuel : nat) (s : text) (lines : list (list block_token)) (line : list block_token) {struct fuel} : block_result :=
    match s with
    | [] => BlockUnterminated
    | c :: s' =>
        match fuel with
        | 0 => BlockFuel
        | S fuel' =>
            match strip_prefix [c_quote; c_quote; c_quote] s with
            | Some r => BlockLines (lines ++ [line]) r
            | None =>
                match strip_prefix [c_backslash; c_quote; c_quote; c_quote] s with
                | Some r => lex_block fuel' r lines (line ++ [BEscaped])
                | None =>
                    if N.eqb c c_newline then lex_block fuel' s' (lines ++ [line]) []
                    else if N.eqb c c_return then
                      match s' with
                      | d :: s'' => if N.eqb d c_newline then lex_block fuel' s'' (lines ++ [line]) []
                                    else lex_block fuel' s' (lines ++ [line]) []
                      | [] => lex_block fuel' s' (lines ++ [line]) []
                      end
                    else if is_indent c then lex_block fuel' s' lines (line ++ [BSpace c])
                    else if N.eqb c c_quote || N.eqb c c_backslash then lex_block fuel' s' lines (line ++ [BChars [c]])
                    else lex_block fuel' (drop_while is_block_char s) lines (line ++ [BChars (take_while is_block_char s)])
                end
            end
        end
    end.

  Definition bt_space (t : block_token) : bool := match t with BSpace _ => true | _ => false end.
  (** [Iterator::position] *)
  Fixpoint position {A} (f : A -> bool) (l : list A) : option nat :=
    match l with [] => None | x :: l' => if f x then Some 0 else option_map S (position f l') end.
  Definition list_min (l : list nat) : option nat :=
    match l with [] => None | x :: l' => Some (fold_left Nat.min l' x) end.
  Definition filter_some {A} (l : list (option A)) : list A := flat_map (fun o => match o with Some x => [x] | None => [] end) l.
  Definition bt_text (t : block_token) : text :=
    match t with BChars s => s | BSpace c => [c] | BEscaped => [c_quote; c_quote; c_quote] end.
  (** [block_string_value] (:59-115). A slice [line[min(len, i)..]] is [skipn i line]. *)
  Definition block_string_value (lines : list (list block_token)) : text :=
    let common_indent := match list_min (filter_some (map (position (fun t => negb (bt_space t))) (tl lines))) with
                         | Some n => n | None => 0 end in
    let has_content := fun l => existsb (fun t => negb (bt_space t)) l in
    let indent := fun i => if Nat.eqb i 0 then 0 else common_indent in
    let front := position (fun il => has_content (skipn (indent (fst il)) (snd il))) (mapi pair lines) in
    let back := position (fun line => has_content (skipn common_indent line)) (rev lines) in
    match front, back with
    | Some start, Some e =>
        let stop := length lines - e in
        concat (mapi (fun k line =>
                        (if Nat.eqb k 0 then [] else [c_newline]) ++
                        concat (map bt_text (skipn (indent (start + k)) line)))
                     (firstn (stop - start) (skipn start lines)))
    | _, _ => []
    end.

  (** ** One token (logos_lexer.rs:28-79); [s] starts with [c], which starts no skipped text; [pos]: byte offset of [s] *)
  Definition lex_token (pos : nat) (c : N) (s' : text) : (token + lex_error) * text :=
    let s := c :: s' in
    match punct_of c with
    | Some p => (inl (TkPunct p), s')
    | None =>
        if N.eqb c 46 then
          match strip_prefix [46; 46; 46]%N s with
          | Some r => (inl (TkPunct PEllipse), r)
          | None => (inr UnrecognizedToken, after_error s)
          end
        else if N.eqb c 36 then
          match s' with
          | d :: _ => if is_name_start d then (inl (TkVar (take_while is_name_char s')), drop_while is_name_char s')
                      else (inr UnrecognizedToken, after_error s)
          | [] => (inr UnrecognizedToken, after_error s)
          end
        else if is_name_start c then (inl (TkName (take_while is_name_char s)), drop_while is_name_char s)
        else if N.eqb c 45 || is_digit c then lex_number s
        else if N.eqb c c_quote then
          match strip_prefix [c_quote; c_quote; c_quote] s with
          | Some r => match lex_block (length r) r [] [] with
                      | BlockLines ls r' => (inl (TkStr (block_string_value ls)), r')
                      | BlockUnterminated => (inr UnrecognizedToken, [])
                      | BlockFuel => (inr OutOfFuel, [])
                      end
          | None => lex_string (length s') (pos + 1) s' [] []
          end
        else (inr UnrecognizedToken, after_error s)
    end.

  (** the skip patterns (:24-25); [comment]: inside a comment *)
  Fixpoint skip_ignored (comment : bool) (s : text) : text :=
    match s with
    | [] => []
    | c :: s' =>
        if comment then skip_ignored (negb (is_line_end c)) s'
        else if is_blank c then skip_ignored false s'
        else if N.eqb c 35 then skip_ignored true s'
        else s
    end.

  (** [LogosLexer] as an iterator (:126-179): the items with their byte spans *)
  Definition item : Type := (token + lex_error) * (nat * nat).
  Fixpoint lex_items (fuel : nat) (pos : nat) (s : text) {struct fuel} : list item :=
    match skip_ignored false s with
    | [] => []
    | c :: s1 =>
        let start := pos + (blen s - blen (c :: s1)) in
        match fuel with
        | 0 => [(inr OutOfFuel, (start, start))]
        | S fuel' =>
            let '(r, s2) := lex_token start c s1 in
            let stop := start + (blen (c :: s1) - blen s2) in
            (r, (start, stop)) :: lex_items fuel' stop s2
        end
    end.
  Definition lex (s : text) : list item := lex_items (length s) 0 s.
End Lexer.
