(** What the GraphQL specification says about source text, independently of the lexer's code: ignored text, the texts of
    the tokens, string escapes and block strings. *)
From Verif Require Import Base Decimal10 Lexer.

(** ** Ignored text: white space, line terminators, commas, byte order marks and comments up to the end of their line. *)
Inductive blank : N -> Prop :=
| blank_bom : blank 65279 | blank_tab : blank 9 | blank_space : blank 32
| blank_lf : blank 10 | blank_cr : blank 13 | blank_comma : blank 44.
Definition line_end (c : N) : Prop := c = 10%N \/ c = 13%N.
Inductive ignored : text -> Prop :=
| ignored_nil : ignored []
| ignored_blank c w : blank c -> ignored w -> ignored (c :: w)
| ignored_comment body e w : Forall (fun c => ~ line_end c) body -> line_end e -> ignored w -> ignored (35%N :: body ++ e :: w).
(** at the end of the source a comment needs no line terminator *)
Definition ignored_end (w : text) : Prop :=
  ignored w \/ exists w1 body, ignored w1 /\ Forall (fun c => ~ line_end c) body /\ w = w1 ++ 35%N :: body.

(** ** Strings *)
Definition scalar (c : N) : Prop := (c <= 55295 \/ 57344 <= c <= 1114111)%N.
Definition hex_digit (c : N) : Prop := (48 <= c <= 57 \/ 65 <= c <= 70 \/ 97 <= c <= 102)%N.
Definition hex_digit_value (c : N) : N := (if c <=? 57 then c - 48 else if c <=? 70 then c - 55 else c - 87)%N.
(** the number a sequence of hexadecimal digits denotes *)
Fixpoint hex_denotes (l : text) : N :=
  match l with [] => 0 | c :: l' => hex_digit_value c * 16 ^ N.of_nat (length l') + hex_denotes l' end%N.
(** the characters after a backslash and what they stand for *)
Definition simple_escapes : list (N * N) :=
  [(34, 34); (92, 92); (47, 47); (98, 8); (102, 12); (110, 10); (114, 13); (116, 9)]%N.
(** the parts of a string literal *)
Inductive piece :=
| PcChar (c : N)          (* a source character *)
| PcSimple (e c : N)      (* \e *)
| PcFixed (h : text)      (* \uXXXX *)
| PcPair (h1 h2 : text)   (* \uXXXX\uXXXX, a surrogate pair *)
| PcBraced (h : text).    (* \u{X...} *)
Definition unicode_escape (h : text) : text := [92; 117]%N ++ h.
Definition piece_text (p : piece) : text :=
  match p with
  | PcChar c => [c]
  | PcSimple e _ => [92%N; e]
  | PcFixed h => unicode_escape h
  | PcPair h1 h2 => unicode_escape h1 ++ unicode_escape h2
  | PcBraced h => [92; 117; 123]%N ++ h ++ [125%N]
  end.
Definition piece_value (p : piece) : N :=
  match p with
  | PcChar c => c
  | PcSimple _ c => c
  | PcFixed h => hex_denotes h
  | PcPair h1 h2 => ((hex_denotes h1 - 55296) * 1024 + (hex_denotes h2 - 56320) + 65536)%N
  | PcBraced h => hex_denotes h
  end.
Definition four_hex (h : text) : Prop := length h = 4 /\ Forall hex_digit h.
Definition piece_ok (p : piece) : Prop :=
  match p with
  | PcChar c => c <> 34%N /\ c <> 92%N /\ ~ line_end c
  | PcSimple e c => In (e, c) simple_escapes
  | PcFixed h => four_hex h /\ scalar (hex_denotes h)
  | PcPair h1 h2 => four_hex h1 /\ four_hex h2 /\ (55296 <= hex_denotes h1 <= 56319)%N /\ (56320 <= hex_denotes h2 <= 57343)%N
  | PcBraced h => h <> [] /\ Forall hex_digit h /\ scalar (hex_denotes h)
  end.
(** [string_denotes body v]: the text between the quotation marks is a string of the specification, with value [v] *)
Definition string_denotes (body v : text) : Prop :=
  exists ps, Forall piece_ok ps /\ body = concat (map piece_text ps) /\ v = map piece_value ps.

(** ** Block strings *)
Definition quotes3 : text := [34; 34; 34]%N.
Definition escaped3 : text := 92%N :: quotes3.
Definition starts_with (l s : text) : Prop := exists r, s = l ++ r.
(** [block_body b v]: text [b] followed by three quotation marks is the inside of a block string whose raw value
    (with the escaped quotation marks replaced) is [v] *)
Inductive block_body : text -> text -> Prop :=
| bb_nil : block_body [] []
| bb_escaped b v : block_body b v -> block_body (escaped3 ++ b) (quotes3 ++ v)
| bb_char c b v : ~ starts_with quotes3 (c :: b ++ quotes3) -> ~ starts_with escaped3 (c :: b ++ quotes3) ->
                  block_body b v -> block_body (c :: b) (c :: v).
(** The static algorithm BlockStringValue of the specification (section "String Value"). *)
Fixpoint split_lines (s : text) : list text :=
  match s with
  | [] => [[]]
  | c :: s' =>
      if N.eqb c 13 then
        match s' with
        | d :: s'' => if N.eqb d 10 then [] :: split_lines s'' else [] :: split_lines s'
        | [] => [] :: split_lines s'
        end
      else if N.eqb c 10 then [] :: split_lines s'
      else match split_lines s' with [] => [[c]] | l :: ls => (c :: l) :: ls end
  end.
Definition white (c : N) : bool := N.eqb c 9 || N.eqb c 32.
Fixpoint leading_white (l : text) : nat := match l with c :: l' => if white c then S (leading_white l') else 0 | [] => 0 end.
Definition only_white (l : text) : bool := forallb white l.
(** the least of the optional numbers *)
Definition opt_min (a b : option nat) : option nat :=
  match a, b with Some x, Some y => Some (Nat.min x y) | Some x, None => Some x | None, o => o end.
(** the indentation of a line that has other characters than white space *)
Definition line_indent (l : text) : option nat := if Nat.ltb (leading_white l) (length l) then Some (leading_white l) else None.
Definition common_indent_of (ls : list text) : option nat := fold_right (fun l acc => opt_min (line_indent l) acc) None (tl ls).
Definition remove_indent (ls : list text) : list text :=
  match common_indent_of ls, ls with
  | Some n, l :: ls' => l :: map (skipn n) ls'
  | _, _ => ls
  end.
Fixpoint drop_blank_lines (ls : list text) : list text :=
  match ls with l :: ls' => if only_white l then drop_blank_lines ls' else ls | [] => [] end.
Fixpoint join_lines (ls : list text) : text :=
  match ls with [] => [] | [l] => l | l :: ls' => l ++ 10%N :: join_lines ls' end.
Definition spec_block_value (raw : text) : text :=
  join_lines (rev (drop_blank_lines (rev (drop_blank_lines (remove_indent (split_lines raw)))))).

(** ** Tokens *)
Definition name_start (c : N) : Prop := (c = 95 \/ 65 <= c <= 90 \/ 97 <= c <= 122)%N.
Definition digit (c : N) : Prop := (48 <= c <= 57)%N.
Definition name_continue (c : N) : Prop := name_start c \/ digit c.
(** a GraphQL Name *)
Definition is_name (n : text) : Prop := match n with c :: n' => name_start c /\ Forall name_continue n' | [] => False end.
Definition punct_text (p : punct) : text :=
  match p with
  | PBang => [33] | PAmpersand => [38] | POpenRound => [40] | PCloseRound => [41] | PEllipse => [46; 46; 46]
  | PColon => [58] | PEquals => [61] | PAt => [64] | POpenSquare => [91] | PCloseSquare => [93]
  | POpenBrace => [123] | PCloseBrace => [125] | PPipe => [124]
  end%N.
(** IntegerPart: an optional minus sign, then 0 or digits not starting with 0 *)
Definition unsigned_int (l : text) : Prop :=
  l = [48%N] \/ exists c l', l = c :: l' /\ (49 <= c <= 57)%N /\ Forall digit l'.
Definition int_literal (l : text) : Prop := unsigned_int l \/ exists l', l = 45%N :: l' /\ unsigned_int l'.
Definition int_value (l : text) : Z :=
  match l with c :: l' => if N.eqb c 45 then - Z.of_N (digits_value l') else Z.of_N (digits_value l) | [] => 0 end%Z.
Definition fits_i32 (z : Z) : Prop := (-2147483648 <= z <= 2147483647)%Z.
Definition digits1 (l : text) : Prop := l <> [] /\ Forall digit l.
Definition fraction (l : text) : Prop := exists d, l = 46%N :: d /\ digits1 d.
Definition exponent (l : text) : Prop :=
  exists e sign d, l = e :: sign ++ d /\ (e = 101%N \/ e = 69%N) /\ (sign = [] \/ sign = [43%N] \/ sign = [45%N]) /\ digits1 d.
Definition float_literal (l : text) : Prop :=
  exists i f e, l = i ++ f ++ e /\ int_literal i /\ (fraction f /\ e = [] \/ f = [] /\ exponent e \/ fraction f /\ exponent e).

(** The string literals the lexer takes: \uXXXX escapes are read two at a time, so a surrogate pair must not come after an
    odd number of consecutive \uXXXX escapes, and \u{...} has at most eight digits. *)
Fixpoint even_runs (ps : list piece) : Prop :=
  match ps with
  | [] => True
  | PcFixed _ :: rest =>
      match rest with
      | PcFixed _ :: rest' => even_runs rest'
      | PcPair _ _ :: _ => False
      | _ => even_runs rest
      end
  | _ :: rest => even_runs rest
  end.
Definition short_braces (p : piece) : Prop := match p with PcBraced h => length h <= 8 | _ => True end.
Definition string_taken (body v : text) : Prop :=
  exists ps, Forall piece_ok ps /\ Forall short_braces ps /\ even_runs ps /\ body = concat (map piece_text ps) /\ v = map piece_value ps.

(** [lexeme parse_f64 t l]: [l] is a way to write the token [t] *)
Inductive lexeme (parse_f64 : text -> option N) : token -> text -> Prop :=
| lx_punct p : lexeme parse_f64 (TkPunct p) (punct_text p)
| lx_name n : is_name n -> lexeme parse_f64 (TkName n) n
| lx_var n : is_name n -> lexeme parse_f64 (TkVar n) (36%N :: n)
| lx_int l : int_literal l -> fits_i32 (int_value l) -> lexeme parse_f64 (TkInt (int_value l)) l
| lx_float l b : float_literal l -> parse_f64 l = Some b -> lexeme parse_f64 (TkFloat b) l
| lx_string body v : string_taken body v -> lexeme parse_f64 (TkStr v) (34%N :: body ++ [34%N])
| lx_block body raw : block_body body raw -> lexeme parse_f64 (TkStr (spec_block_value raw)) (quotes3 ++ body ++ quotes3).
(** [apart digits t l r]: the text [r] does not continue the token [t] written [l]. [digits]: further characters the lexer
    takes for digits. *)
Definition first_is (P : N -> Prop) (r : text) : Prop := match r with c :: _ => P c | [] => False end.
Definition apart (digits : N -> bool) (t : token) (l r : text) : Prop :=
  match t with
  | TkPunct _ => True
  | TkName _ | TkVar _ => ~ first_is name_continue r
  | TkInt _ | TkFloat _ => ~ first_is (fun c => name_continue c \/ c = 46 \/ 128 <= c /\ digits c = true)%N r
  | TkStr _ => l = [34; 34]%N -> ~ first_is (fun c => c = 34%N) r
  end.

(** ** Source text *)
(** the bytes of a scalar value in UTF-8 (RFC 3629) and the number of bytes of a text *)
Definition utf8 (c : N) : list N :=
  (if c <=? 127 then [c]
   else if c <=? 2047 then [192 + c / 64; 128 + c mod 64]
   else if c <=? 65535 then [224 + c / 4096; 128 + c / 64 mod 64; 128 + c mod 64]
   else [240 + c / 262144; 128 + c / 4096 mod 64; 128 + c / 64 mod 64; 128 + c mod 64])%N.
Definition bytes (s : text) : nat := length (flat_map utf8 s).
(** [tiles pos s items]: ignored text apart, the byte spans of [items] cover [s], which starts at byte [pos], in order and
    without overlap; [ok]: what an item may be on the text it covers *)
Inductive tiles (ok : token + lex_error -> text -> Prop) : nat -> text -> list item -> Prop :=
| tiles_end pos w : ignored_end w -> tiles ok pos w []
| tiles_item pos w l s r items :
    ignored w -> l <> [] -> ok r l -> tiles ok (pos + bytes w + bytes l) s items ->
    tiles ok pos (w ++ l ++ s) ((r, (pos + bytes w, pos + bytes w + bytes l)) :: items).
(** [source digits parse_f64 ts s]: [s] is the tokens [ts] written one after the other with ignored text around them *)
Inductive source (digits : N -> bool) (parse_f64 : text -> option N) : list token -> text -> Prop :=
| source_end w : ignored_end w -> source digits parse_f64 [] w
| source_token w t l ts s :
    ignored w -> lexeme parse_f64 t l -> apart digits t l s -> source digits parse_f64 ts s ->
    source digits parse_f64 (t :: ts) (w ++ l ++ s).
