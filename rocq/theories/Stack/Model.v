(** * llrl0/src/backend/chibi/codegen/{reg_assign,stack_inst}.rs and parts of codegen.rs

    The code that moves values between registers, the stack and memory.  A function that writes
    instructions is modelled by the list of these instructions with the change of the recorded depth
    of the stack ([usize] in the code, [Z] here).  The casts to [i32] are left out: offsets and sizes
    do not overflow. *)
From Coq Require Import ZArith.
From Verif.Base Require Import Base.
From Verif.Layout Require Import Model.
From Verif.Stack Require Import Machine.
Local Open Scope Z_scope.

(** ** reg_assign.rs *)

(** reg_assign.rs:54-58 [AssignedReg], :5-10 [RegAssign] *)
Inductive reg := Gpr (r : gpr) | Xmm (x : nat) | NoReg.
Record assign := Assign { a_offset : N; a_size : N; a_reg : reg }.

(** reg_assign.rs:30-48: the loop over the eightbytes; what is left of the registers is returned.
    [None] is [Err(())], on which the registers are left alone. *)
Fixpoint assign_all (es : list eightbyte) (gps : list gpr) (fps : list nat)
  : option (list assign * list gpr * list nat) :=
  match es with
  | [] => Some ([], gps, fps)
  | e :: es =>
      let next r gps fps :=
        match assign_all es gps fps with
        | Some (rs, gps, fps) => Some (Assign (e_offset e) (e_size e) r :: rs, gps, fps)
        | None => None
        end in
      match e_class e, gps, fps with
      | Void, _, _ => next NoReg gps fps
      | Integer, g :: gps, _ => next (Gpr g) gps fps
      | FloatingPoint, _, x :: fps => next (Xmm x) gps fps
      | _, _, _ => None
      end
  end.

(** reg_assign.rs:21-51 [RegAssign::build] *)
Definition build (l : layout) (gps : list gpr) (fps : list nat)
  : option (list assign * list gpr * list nat) :=
  match cls l with
  | Integer | FloatingPoint => assign_all (eightbytes l) gps fps
  | _ => None
  end.

(** ** stack_inst.rs *)

(** Instructions and the change of the recorded depth. *)
Definition code : Type := list inst * Z.
Definition nothing : code := ([], 0).
Definition keep (is : list inst) : code := (is, 0).
Definition andthen (a b : code) : code := (fst a ++ fst b, snd a + snd b).
Fixpoint all (cs : list code) : code :=
  match cs with [] => nothing | c :: cs => andthen c (all cs) end.

(** stack_inst.rs:10-14 *)
Definition tmp1 : gpr := R10.
Definition tmp2 : gpr := R11.
Definition last_gps : list gpr := [Rax; Rdx].
Definition last_fps : list nat := [0; 1]%nat.

Definition words (l : layout) : Z := Z.of_N (num_eightbytes l).

(** stack_inst.rs:25-31 *)
Definition extend_stack (l : layout) : code :=
  if (size l =? 0)%N then nothing else ([Subq Rsp (words l * 8)], words l).
(** stack_inst.rs:33-39 *)
Definition shrink_stack (l : layout) : code :=
  if (size l =? 0)%N then nothing else ([Addq Rsp (words l * 8)], - words l).

(** stack_inst.rs:216-252 [Gpr64::load]; other sizes panic. *)
Definition load_gpr (r : gpr) (a : addr) (n : N) : list inst :=
  match n with
  | 1%N => [Load B r a]
  | 2%N => [Load W r a]
  | 3%N => [LoadZ W r a; LoadZ B tmp1 (plus a 2); Shlq tmp1 16; Orq r tmp1]
  | 4%N => [Load L r a]
  | 5%N => [Load L r a; LoadZ B tmp1 (plus a 4); Shlq tmp1 32; Orq r tmp1]
  | 6%N => [Load L r a; LoadZ W tmp1 (plus a 4); Shlq tmp1 32; Orq r tmp1]
  | 7%N => [Load L r a; LoadZ W tmp1 (plus a 4); Shlq tmp1 32; Orq r tmp1;
            LoadZ B tmp1 (plus a 6); Shlq tmp1 48; Orq r tmp1]
  | 8%N => [Load Q r a]
  | _ => []
  end.
(** stack_inst.rs:254-290 [Gpr64::store] *)
Definition store_gpr (a : addr) (r : gpr) (n : N) : list inst :=
  match n with
  | 1%N => [Store B a r]
  | 2%N => [Store W a r]
  | 3%N => [Store W a r; Shrl r 16; Store B (plus a 2) r]
  | 4%N => [Store L a r]
  | 5%N => [Store L a r; Shrq r 32; Store B (plus a 4) r]
  | 6%N => [Store L a r; Shrq r 32; Store W (plus a 4) r]
  | 7%N => [Store L a r; Shrq r 32; Store W (plus a 4) r; Shrq r 16; Store B (plus a 6) r]
  | 8%N => [Store Q a r]
  | _ => []
  end.

(** stack_inst.rs:206-214, 294-304, 323-337 [push] and [pop], with :68-78 *)
Definition push_eightbyte (r : reg) : code :=
  match r with
  | Gpr r => ([Push r], 1)
  | Xmm x => ([MovqGX tmp2 x; Push tmp2], 1)
  | NoReg => nothing
  end.
Definition pop_eightbyte (r : reg) : code :=
  match r with
  | Gpr r => ([Pop r], -1)
  | Xmm x => ([Pop tmp2; MovqXG x tmp2], -1)
  | NoReg => nothing
  end.
(** stack_inst.rs:80-98, 306-319, 339-358 [load] and [store] *)
Definition load_eightbyte (r : reg) (a : addr) (n : N) : code :=
  match r with
  | Gpr r => keep (load_gpr r a n)
  | Xmm x => keep (load_gpr tmp2 a n ++ [MovqXG x tmp2])
  | NoReg => nothing
  end.
Definition store_eightbyte (a : addr) (r : reg) (n : N) : code :=
  match r with
  | Gpr r => keep (store_gpr a r n)
  | Xmm x => keep (MovqGX tmp2 x :: store_gpr a tmp2 n)
  | NoReg => nothing
  end.

(** stack_inst.rs:41-66 [slide_in_stack]; [slide_one] is the body of both loops. *)
Definition rsp_plus (n : N) : addr := Addr Rsp None (Z.of_N n).
Definition slide_one (src dst : N) (l : layout) (i : nat) : code :=
  let i := N.of_nat i in
  let n := N.min (size l - i * 8) 8 in
  andthen (load_eightbyte (Gpr tmp2) (rsp_plus (src + i * 8)) n)
          (store_eightbyte (rsp_plus (dst + i * 8)) (Gpr tmp2) n).
Definition slide_in_stack (src dst : N) (l : layout) : code :=
  let is := List.seq 0 (N.to_nat (num_eightbytes l)) in
  match N.compare src dst with
  | Eq => nothing
  | Lt => all (List.map (slide_one src dst l) (List.rev is))
  | Gt => all (List.map (slide_one src dst l) is)
  end.

Definition is_memory (l : layout) : bool := class_eqb (cls l) Memory.

(** stack_inst.rs:100-109 *)
Definition discard (l : layout) : code := if is_memory l then shrink_stack l else nothing.

Definition last_value (l : layout) : option (list assign) :=
  match build l last_gps last_fps with Some (rs, _, _) => Some rs | None => None end.

(** stack_inst.rs:111-125 *)
Definition push (l : layout) : code :=
  match last_value l with
  | Some rs => all (List.map (fun r => push_eightbyte (a_reg r)) (List.rev rs))
  | None => nothing
  end.
(** stack_inst.rs:127-141 *)
Definition pop (l : layout) : code :=
  match last_value l with
  | Some rs => all (List.map (fun r => pop_eightbyte (a_reg r)) rs)
  | None => nothing
  end.
(** stack_inst.rs:143-164 *)
Definition load (a : addr) (l : layout) : code :=
  match last_value l with
  | Some rs => all (List.map (fun r => load_eightbyte (a_reg r) (plus a (Z.of_N (a_offset r))) (a_size r)) rs)
  | None =>
      if is_memory l then
        all (List.map (fun e => andthen (load_eightbyte (Gpr tmp2) (plus a (Z.of_N (e_offset e))) (e_size e))
                                        (push_eightbyte (Gpr tmp2)))
                      (List.rev (eightbytes l)))
      else nothing
  end.
(** stack_inst.rs:166-187 *)
Definition store (a : addr) (l : layout) : code :=
  match last_value l with
  | Some rs => all (List.map (fun r => store_eightbyte (plus a (Z.of_N (a_offset r))) (a_reg r) (a_size r)) rs)
  | None =>
      if is_memory l then
        all (List.map (fun e => andthen (pop_eightbyte (Gpr tmp2))
                                        (store_eightbyte (plus a (Z.of_N (e_offset e))) (Gpr tmp2) (e_size e)))
                      (eightbytes l))
      else nothing
  end.

(** ** Parts of structures (codegen.rs) *)

(** codegen.rs:641-651 [StructElem], given the layout of the structure; a structure without the
    element panics. *)
Definition struct_elem (s : layout) (i : nat) : outcome (code * layout) :=
  match composite s with
  | None => Panic
  | Some (elems, _) =>
      match nth_error elems i with
      | None => Panic
      | Some (offset, l) =>
          if negb (offset =? 0)%N || (num_eightbytes l <? num_eightbytes s)%N then
            let diff := ((num_eightbytes s - num_eightbytes l) * 8)%N in
            Ret (andthen (push s) (andthen (slide_in_stack offset diff l)
                   (andthen (shrink_stack (l_memory diff 8)) (pop l))), l)
          else Ret (nothing, l)
      end
  end.

(** codegen.rs:652-669 [Reinterpret] *)
Definition reinterpret (from to : layout) : code :=
  let f := num_eightbytes from in
  let t := num_eightbytes to in
  andthen (push from)
    (andthen
      (if (f <? t)%N then
         let diff := ((t - f) * 8)%N in
         andthen (extend_stack (l_memory diff 8)) (slide_in_stack diff 0 from)
       else
         let diff := ((f - t) * 8)%N in
         andthen (slide_in_stack 0 diff to) (shrink_stack (l_memory diff 8)))
      (pop to)).
