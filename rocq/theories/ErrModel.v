(** * The error value of [parse] as a user meets it: its [Display] and [Error] implementations

    Models parser/src/iter.rs 12-34.  A [Formatter] (std) is modelled as a pair: the options of the format specification (width,
    fill, alternate, ...), of any type [O], and a sink of any type [K] with the function that writes a string to it; that function
    returns the new sink and whether it succeeded.  An implementation of [Display] works for all sinks.  [write!] with a literal
    without placeholders writes that literal to the sink once and does not look at the options. *)
From Coq Require Import List String.
From Verif Require Import Lib ParseModel.
Import ListNotations.
Open Scope string_scope.

(** parser/src/iter.rs:12-16 *)
Inductive parse_error (E : Type) := RecoveryRuleNotFound | ErrorInReducer (e : E).
Arguments RecoveryRuleNotFound {E}.
Arguments ErrorInReducer {E} e.

(** the [Err] of the [Result] that [parse] returns, parser/src/iter.rs:37, 44; [outcome] (ParseModel.v) is that [Result] *)
Definition error_of {N E} (o : outcome N E) : option (parse_error E) :=
  match o with ROk _ => None | RNotFound => Some RecoveryRuleNotFound | RReducer e => Some (ErrorInReducer e) end.

Section Display.
  Variable O : Type.
  (** [Display::fmt(&self, f)] (std): the options of [f], the sink of [f]; true for [Ok(())]  (parser/src/iter.rs:19) *)
  Definition display (E : Type) : Type := E -> O -> forall K : Type, (string -> K -> K * bool) -> K -> K * bool.

  (** parser/src/iter.rs:18-25 *)
  Definition pe_fmt {E} (d : display E) : display (parse_error E) := fun x o K write k =>
    match x with
    | ErrorInReducer e => d e o K write k
    | RecoveryRuleNotFound => write "recovery rule is not found" k
    end.

  (** [format!] with the options [o]; [to_string] is this with no options: the sink is a [String], which takes everything; an error
      returned by [fmt] makes it panic (std; used through parser/src/iter.rs:18) *)
  Definition format {E} (d : display E) (o : O) (x : E) : res string :=
    match d x o string (fun s k => (k ++ s, true)) "" with (s, true) => Ok s | (_, false) => Panic end.

  (** [&dyn Error] (std): how it is displayed, and its source  (parser/src/iter.rs:28) *)
  Inductive dyn_error := Dyn (de_fmt : O -> forall K : Type, (string -> K -> K * bool) -> K -> K * bool) (de_source : option dyn_error).
  Definition de_fmt (x : dyn_error) := match x with Dyn f _ => f end.
  Definition de_source (x : dyn_error) := match x with Dyn _ s => s end.

  (** parser/src/iter.rs:27-34.  An error type: how its values are displayed, and what they are as trait objects *)
  Definition pe_source {E} (dyn : E -> dyn_error) (x : parse_error E) : option dyn_error :=
    match x with RecoveryRuleNotFound => None | ErrorInReducer e => Some (dyn e) end.
  Definition pe_dyn {E} (d : display E) (dyn : E -> dyn_error) (x : parse_error E) : dyn_error := Dyn (pe_fmt d x) (pe_source dyn x).
End Display.
