(** Model of llrl0/src/string.rs. *)
From Verif.Base Require Import Base.

(** string.rs:3-12 [escape_char]. The result is the replacement text. *)
Definition escape_char (c : char) : option text :=
  if (c =? c_tab)%N then Some (t_ "\t")
  else if (c =? c_cr)%N then Some (t_ "\r")
  else if (c =? c_lf)%N then Some (t_ "\n")
  else if (c =? c_quote)%N then Some [c_backslash; c_quote]
  else if (c =? c_backslash)%N then Some [c_backslash; c_backslash]
  else None.

(** string.rs:14-23 [unescape_char]. *)
Definition unescape_char (c : char) : option char :=
  if (c =? c_ "t")%N then Some c_tab
  else if (c =? c_ "r")%N then Some c_cr
  else if (c =? c_ "n")%N then Some c_lf
  else if (c =? c_quote)%N then Some c_quote
  else if (c =? c_backslash)%N then Some c_backslash
  else None.

(** Rust [str::find] with a character predicate (used at string.rs:59,64): the text before the
    first matching character and the text starting at it. *)
Fixpoint find_char (pat : char -> bool) (t : text) : option (text * text) :=
  match t with
  | [] => None
  | c :: t' =>
    if pat c then Some ([], t)
    else match find_char pat t' with
         | Some (a, b) => Some (c :: a, b)
         | None => None
         end
  end.

(** string.rs:54-71 [replace]. The [while let] loop is recursion on [fuel]; the caller passes the
    length of the input plus one. [Some]/[None] is the Rust result; [Cow::Borrowed] and
    [Cow::Owned] are not distinguished (both are the text). The replacer returns the remaining
    input and the text pushed to the buffer. *)
Fixpoint replace_loop (fuel : nat) (pat : char -> bool) (repl : text -> option (text * text))
    (input buf : text) : outcome (option text) :=
  match fuel with
  | O => OutOfFuel
  | S fuel =>
    match find_char pat input with
    | Some (before, at_) =>
      match repl at_ with
      | Some (rest, pushed) => replace_loop fuel pat repl rest (buf ++ before ++ pushed)
      | None => Ret None
      end
    | None => Ret (Some (buf ++ input))
    end
  end.

Definition replace (pat : char -> bool) (repl : text -> option (text * text)) (input : text)
  : outcome (option text) :=
  replace_loop (S (List.length input)) pat repl input [].

(** string.rs:29-34, the closure of [escape]. *)
Definition escape_repl (input : text) : option (text * text) :=
  match input with
  | [] => None
  | c :: rest =>
    match escape_char c with
    | Some ec => Some (rest, ec)
    | None => None
    end
  end.

(** string.rs:25-37 [escape]: [unwrap] of the result of [replace]. *)
Definition escape (input : text) : outcome text :=
  let* r := replace (fun c => match escape_char c with Some _ => true | None => false end)
                    escape_repl input in
  match r with
  | Some t => Ret t
  | None => Panic
  end.

(** string.rs:43-50, the closure of [unescape]. *)
Definition unescape_repl (input : text) : option (text * text) :=
  match input with
  | _ :: c2 :: rest =>
    match unescape_char c2 with
    | Some ec => Some (rest, [ec])
    | None => None
    end
  | _ => None
  end.

(** string.rs:39-52 [unescape]. *)
Definition unescape (input : text) : outcome (option text) :=
  replace (fun c => (c =? c_backslash)%N) unescape_repl input.
