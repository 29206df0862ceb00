(** Specification of the surroundings of code. *)
From Coq Require Import String List Bool.
From Verif Require Import Base Tokens ParserCore SpecGrammar SpecLanguage SpecEnclose.
Import ListNotations.
Local Open Scope string_scope.
Local Open Scope list_scope.

(** The parameters [g'] are as strict as [g] and allow nameless declarations where [g] does. *)
Definition within (g g' : grammar_flags) : Prop :=
  is_strict g' = is_strict g /\ (allow_default g = true -> allow_default g' = true).

(** [function * name ( ) { a }] *)
Definition in_generator (name : lookahead) (a : tokens) (nl : bool) : tokens :=
  word "function" :: mark Star :: name :: mark ParenOpen :: mark ParenClose :: in_block a nl.
(** [( function ( ) { a } ) ( )] *)
Definition in_call (a : tokens) (nl : bool) : tokens :=
  mark ParenOpen :: word "function" :: mark ParenOpen :: mark ParenClose :: in_block a nl ++
  [mark ParenClose; mark ParenOpen; mark ParenClose].
(** [( ) => { a }] *)
Definition in_arrow (a : tokens) (nl : bool) : tokens :=
  mark ParenOpen :: mark ParenClose :: mark Arrow :: in_block a nl.
(** [class name { method ( ) { a } }] *)
Definition in_method (name method : lookahead) (a : tokens) (nl : bool) : tokens :=
  word "class" :: name :: mark CurlyOpen :: method :: mark ParenOpen :: mark ParenClose :: in_block a nl ++ [mark CurlyClose].
(** [export default async function ( ) { a }] *)
Definition in_async (a : tokens) (nl : bool) : tokens :=
  word "export" :: word "default" :: word "async" :: word "function" :: mark ParenOpen :: mark ParenClose :: in_block a nl.
