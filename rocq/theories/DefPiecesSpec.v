(** Pieces of type system documents: how they are written. *)
From Coq Require Import String.
From Verif Require Import Base Ast Lexer ParserSpec DefParser DefParserSpec DefPieces.
Local Open Scope list_scope.

(** [lead]: whether a separator is written before the first item of a list with separators *)
Definition def_written (k : dkind) (lead : bool) : dpiece k -> list token :=
  match k with
  | DKInputValue => tk_ivd | DKField => tk_fdef | DKEnumValue => tk_evd
  | DKScalar | DKObject | DKInterface | DKUnion | DKInput | DKEnum => tk_tdef lead
  | DKDirective => tk_ddef lead | DKSchema => tk_esdef
  end.
(** what can be written *)
Definition def_well (k : dkind) : dpiece k -> Prop :=
  match k with
  | DKInputValue => fun v => ivd_ok v = true
  | DKField => fun f => fdef_ok f = true
  | DKEnumValue => fun v => evd_ok v = true
  | DKScalar => fun t => sysdef_ok (SysType t) /\ exists s, t = DScalar s
  | DKObject => fun t => sysdef_ok (SysType t) /\ exists o, t = DObject o
  | DKInterface => fun t => sysdef_ok (SysType t) /\ exists i, t = DInterface i
  | DKUnion => fun t => sysdef_ok (SysType t) /\ exists u, t = DUnion u
  | DKInput => fun t => sysdef_ok (SysType t) /\ exists i, t = DInput i
  | DKEnum => fun t => sysdef_ok (SysType t) /\ exists e, t = DEnum e
  | DKDirective => fun d => sysdef_ok (SysDirective d)
  | DKSchema => fun e => sysdef_ok (SysSchema e)
  end.
(** the tokens that may continue a piece *)
Definition def_continues (k : dkind) : list punct :=
  match k with
  | DKInputValue => [PBang; PEquals; POpenRound; PAt]
  | DKField => [PBang; POpenRound; PAt]
  | DKEnumValue | DKScalar => [POpenRound; PAt]
  | DKUnion | DKDirective => [PPipe]
  | DKObject | DKInterface | DKInput | DKEnum | DKSchema => []
  end.
Definition def_goes_on (k : dkind) (ts : list token) : Prop := exists p r, ts = TkPunct p :: r /\ In p (def_continues k).
