(** Where the accepted language differs from ECMAScript. *)
From Coq Require Import String List Bool.
From Verif Require Import Base Tokens ParserCore SpecGrammar SpecLanguage SpecWindows.
Import ListNotations.
Local Open Scope string_scope.
Local Open Scope list_scope.

(** A shape of some neighbouring tokens, whatever stands before them, at the start of the
    source or behind one of [ts], or anywhere but behind one of [ts]. *)
Inductive shape : Set :=
| Anywhere (ps : list pattern)
| Behind (ts : list term) (ps : list pattern)
| NotBehind (ts : list term) (ps : list pattern).
Definition has (s : shape) (l : tokens) : Prop :=
  match s with
  | Anywhere ps => occurs ps l
  | Behind ts ps => occurs_after ts ps l
  | NotBehind ts ps => occurs_except_after ts ps l
  end.

(** Where a statement or a member of a class may start. *)
Definition item_start : list term := [P Semicolon; P CurlyOpen; P CurlyClose].
Definition declares : pattern := Is [K "var"; K "let"; K "const"].
(** Names after a period are not keywords. *)
Definition keyword (w : string) (ps : list pattern) : shape := NotBehind [P Period] (Is [K w] :: ps).

(** Shapes that ECMAScript allows and the parser does not. *)
Definition unsupported : list shape :=
  [ (* f(...a, ...b) *)
    Anywhere [Is [P ParenOpen]; Is [P Ellipsis]; Is [Name]; Is [P Comma]; Is [P Ellipsis]];
    (* new.target, import.meta, x = import("y") *)
    keyword "new" [Is [P Period]];
    keyword "import" [Is [P Period]];
    Anywhere [Is [P Eq_]; Is [K "import"]];
    (* class expressions that have a name, a superclass or a body *)
    Behind item_start [Is [Bind]; Is [P Eq_]; Is [K "class"]; SameLine [P CurlyOpen; Bind; K "extends"]];
    Anywhere [declares; Is [Bind]; Is [P Eq_]; Is [K "class"]; SameLine [P CurlyOpen]];
    Anywhere [Is [P Eq_]; Is [K "class"]; Is [K "extends"]; Not [P Colon]];
    Anywhere [Is [P Eq_]; Is [K "class"]; Is [Bind]; SameLine [K "extends"]];
    Anywhere [Is [P ParenOpen]; Is [K "class"]; Is [P CurlyOpen]];
    Anywhere [Is [P SquareOpen]; Is [K "class"]; Is [P CurlyOpen]];
    keyword "return" [SameLine [K "class"]; SameLine [P CurlyOpen]];
    (* async function declarations and expressions *)
    Behind item_start [Is [K "async"]; SameLine [K "function"]; Is [Bind]; Is [P ParenOpen]];
    Anywhere [Is [P Eq_]; Is [K "async"]; SameLine [K "function"]];
    Anywhere [Is [P ParenOpen]; Is [K "async"]; SameLine [K "function"]];
    (* exported functions and classes *)
    keyword "export" [Is [K "function"; K "class"; K "async"]];
    (* export var a; b *)
    keyword "export" [declares; Is [Bind]; Is [P Semicolon]; SameLine [Bind]];
    (* throw a; else *)
    Anywhere [Is [K "throw"]; Is [Bind; Num; Str; K "this"]; Is [P Semicolon]; Is [K "else"]; Not [P Colon]];
    (* default: as the last clause of a switch statement, or before a case, but not the first clause *)
    NotBehind [P CurlyOpen; P Period] [Is [K "default"]; Is [P Colon]; Is [P CurlyClose]];
    NotBehind [P CurlyOpen; P Period] [Is [K "default"]; Is [P Colon]; Is [K "case"]; Not [P Colon]];
    (* ({a = 1} = b), x = {a = 1} = b *)
    Behind item_start [Is [P ParenOpen]; Is [P CurlyOpen]; Is [Bind]; Is [P Eq_]];
    Anywhere [Is [P Eq_]; Is [P CurlyOpen]; Is [Name]; Is [P Eq_]];
    (* let {...a} = b *)
    Behind item_start [declares; SameLine [P CurlyOpen]; Is [P Ellipsis]];
    (* for await (a of b), try {} catch {} *)
    keyword "for" [Is [K "await"]];
    keyword "catch" [Is [P CurlyOpen]];
    (* class A { b = 1 }, class A { async *b() {} }, x = { async *b() {} } *)
    Behind item_start [Is [K "class"]; SameLine [Bind]; SameLine [P CurlyOpen]; Is [Name]; Is [P Eq_]];
    Behind item_start [Is [K "class"]; SameLine [Bind]; SameLine [P CurlyOpen]; Is [K "async"]; Is [P Star]];
    Anywhere [Is [P Eq_]; Is [P CurlyOpen]; Is [K "async"]; Is [P Star]] ].

(** Texts that ECMAScript does not allow and the parser accepts in front of every program. *)
Definition p_ (p : punctuator) : lookahead := (false, TPunctuator p).
Definition w_ (s : string) : lookahead := (false, TIdent (s2b s)).
Definition n_ (v : f64) : lookahead := (false, TNumeric v).
Definition superfluous (v : f64) : list tokens :=
  [ (* return; break; continue a; yield a; outside of functions and loops *)
    [w_ "return"; p_ Semicolon];
    [w_ "break"; p_ Semicolon];
    [w_ "continue"; w_ "a"; p_ Semicolon];
    [w_ "yield"; w_ "a"; p_ Semicolon];
    (* throw a b; *)
    [w_ "throw"; w_ "a"; w_ "b"; p_ Semicolon];
    (* try {}; *)
    [w_ "try"; p_ CurlyOpen; p_ CurlyClose; p_ Semicolon];
    (* for (in a); *)
    [w_ "for"; p_ ParenOpen; w_ "in"; w_ "a"; p_ ParenClose; p_ Semicolon];
    (* 1 = 2; a + b = c; a + b => c; ++a++; - a ** b; *)
    [n_ v; p_ Eq_; n_ v; p_ Semicolon];
    [w_ "a"; p_ Plus; w_ "b"; p_ Eq_; w_ "c"; p_ Semicolon];
    [w_ "a"; p_ Plus; w_ "b"; p_ Arrow; w_ "c"; p_ Semicolon];
    [p_ PlusPlus; w_ "a"; p_ PlusPlus; p_ Semicolon];
    [p_ Minus; w_ "a"; p_ StarStar; w_ "b"; p_ Semicolon];
    (* a = class; (); (a, ...b); *)
    [w_ "a"; p_ Eq_; w_ "class"; p_ Semicolon];
    [p_ ParenOpen; p_ ParenClose; p_ Semicolon];
    [p_ ParenOpen; w_ "a"; p_ Comma; p_ Ellipsis; w_ "b"; p_ ParenClose; p_ Semicolon];
    (* a = {,}; a = {1}; a = {[]: b}; var {1} = a; *)
    [w_ "a"; p_ Eq_; p_ CurlyOpen; p_ Comma; p_ CurlyClose; p_ Semicolon];
    [w_ "a"; p_ Eq_; p_ CurlyOpen; n_ v; p_ CurlyClose; p_ Semicolon];
    [w_ "a"; p_ Eq_; p_ CurlyOpen; p_ SquareOpen; p_ SquareClose; p_ Colon; w_ "b"; p_ CurlyClose; p_ Semicolon];
    [w_ "var"; p_ CurlyOpen; n_ v; p_ CurlyClose; p_ Eq_; w_ "a"; p_ Semicolon];
    (* class A { get *b() {} } *)
    [w_ "class"; w_ "A"; p_ CurlyOpen; w_ "get"; p_ Star; w_ "b"; p_ ParenOpen; p_ ParenClose; p_ CurlyOpen; p_ CurlyClose; p_ CurlyClose];
    (* switch (a) { default: ; default: ; } *)
    [w_ "switch"; p_ ParenOpen; w_ "a"; p_ ParenClose; p_ CurlyOpen; w_ "default"; p_ Colon; p_ Semicolon;
     w_ "default"; p_ Colon; p_ Semicolon; p_ CurlyClose] ].
