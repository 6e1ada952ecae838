(** * What run-time expressions mean

    The meaning of an expression is given directly, without registers, stack or code: values are
    sequences of bytes, some of which may be undefined (padding, uninitialized memory), and the heap
    maps addresses to bytes. *)
From Coq Require Import ZArith.
From Verif.Base Require Import Base.
From Verif.Ir Require Import Model RtInd.
From Verif.Layout Require Import Model.
From Verif.Frame Require Model Spec.
From Verif.Stack Require Import Machine Spec.
From Verif.Codegen Require Import Float Operators.
Local Open Scope Z_scope.

Definition val : Type := list (option Z).
(** [None] outside of the blocks that have been allocated. *)
Definition heap : Type := Z -> option (option Z).

(** The [n] low bytes of a number, the lowest first. *)
Definition le (n : nat) (z : Z) : list Z := map (byte z) (List.seq 0 n).
Definition number (n : nat) (z : Z) : val := map Some (le n z).
Definition pointer (p : Z) : val := number 8 p.
Definition undefined (n : nat) : val := repeat None n.
(** An integer, a floating-point number and an array. *)
Definition is_int (w : width) (l : layout) (x : Z) (v : val) : Prop := integral w l /\ in_bits w x /\ v = number (bytes w) x.
Definition is_float (w : width) (l : layout) (x : Z) (v : val) : Prop := floating w l /\ in_bits w x /\ v = number (bytes w) x.
Definition is_array (p n : Z) (l : layout) (v : val) : Prop := l = l_array /\ in_bits Q p /\ v = pointer p ++ number 8 n.

(** The bytes [v] are at address [p]; memory is available there; bytes are put there. *)
Definition reads (h : heap) (p : Z) (v : val) : Prop :=
  forall i o, nth_error v i = Some o -> h (p + Z.of_nat i) = Some o.
Definition available (h : heap) (p : Z) (n : nat) : Prop := forall i, (i < n)%nat -> h (p + Z.of_nat i) <> None.
Definition put (p : Z) (v : val) (h : heap) : heap :=
  fun a => if (p <=? a) && (a <? p + Z.of_nat (List.length v)) then Some (nth (Z.to_nat (a - p)) v None) else h a.

(** The bytes [w] at offset [o] of [v]. *)
Definition patch (o : N) (w v : val) : val :=
  firstn (N.to_nat o) v ++ w ++ skipn (N.to_nat o + List.length w) v.
(** A structure of which the components are given. *)
Fixpoint patches (elems : list (N * layout)) (vs : list val) (v : val) : val :=
  match elems, vs with
  | (o, _) :: elems, w :: vs => patches elems vs (patch o w v)
  | _, _ => v
  end.

(** An expression evaluates to a value, jumps to a continuation, or returns from the function. *)
Inductive result := OVal (l : layout) (v : val) | OJump (k : nat) (vs : list val) | ORet (l : layout) (v : val).
Definition abrupt (o : result) : Prop := match o with OVal _ _ => False | _ => True end.

(** The values of variables. *)
Definition env : Type := list (nat * val).

(** ** The System V calling convention

    An argument goes to registers if it is of a class for registers and there are enough of them left
    for all of its eightbytes; else it goes to the stack. *)
Definition count (c : class) (l : layout) : nat := List.length (filter (fun e => class_eqb (e_class e) c) (eightbytes l)).
Definition by_register (l : layout) (gs xs : nat) : bool :=
  match cls l with
  | Integer | FloatingPoint => (count Integer l <=? gs)%nat && (count FloatingPoint l <=? xs)%nat
  | _ => false
  end.
(** Given the numbers of general and of floating-point registers that are left. *)
Fixpoint by_registers (ls : list layout) (gs xs : nat) : list bool :=
  match ls with
  | [] => []
  | l :: ls =>
      if by_register l gs xs
      then true :: by_registers ls (gs - count Integer l) (xs - count FloatingPoint l)
      else false :: by_registers ls gs xs
  end.
(** The first of the six general registers is taken by the address of a result in memory. *)
Definition free_gprs (ret : layout) : nat := match cls ret with Memory => 5 | _ => 6 end.
Definition in_registers (ret : layout) (ls : list layout) : list bool := by_registers ls (free_gprs ret) 8.

Fixpoint select {A} (b : bool) (bs : list bool) (xs : list A) : list A :=
  match bs, xs with
  | b' :: bs, x :: xs => if Bool.eqb b' b then x :: select b bs xs else select b bs xs
  | _, _ => []
  end.
(** The compiler does not evaluate the arguments of a C function from left to right, see
    [c_arguments_in_order_refuted]. *)
Definition c_order {A} (ret : layout) (ls : list layout) (xs : list A) : list A :=
  rev (select false (in_registers ret ls) xs) ++ rev (select true (in_registers ret ls) xs).

Section Meaning.
(** The layouts of types, the functions, their addresses, the least address of the heap, and the
    allocator. *)
Variable r : resolver.
Variable functions : nat -> option Frame.Model.function.
Variable fun_address : nat -> Z.
Variable start : Z.
Variable memo : Type.
Variable alloc : memo -> Z -> memo * Z.

(** What changes: the allocator and the heap. *)
Definition world : Type := memo * heap.

(** The addresses of symbols, and what the C function at an address does. *)
Variable symbol : text -> Z.
Variable c_means : Z -> list (layout * val) -> layout -> world -> world -> val -> Prop.

(** A block that was not in use. *)
Definition allocates (w : world) (n : N) (w' : world) (p : Z) : Prop :=
  alloc (fst w) (Z.of_N n) = (fst w', p) /\ start <= p /\ p + Z.of_N n < 2 ^ 64 /\
  (forall a, p <= a < p + Z.of_N n -> snd w a = None) /\
  snd w' = put p (undefined (N.to_nat n)) (snd w).

Definition size_nat (l : layout) : nat := N.to_nat (size l).

Definition const_value (c : const) (l : layout) (v : val) : Prop :=
  match c with
  | KInteger ((CtS _ | CtU _) as t) _ z => get r t = Ret l /\ (size l <= 8)%N /\ v = number (size_nat l) (Z.of_N z)
  | KChar z => l = l_char /\ v = number 4 (Z.of_N z)
  | KUnit => l = l_unit /\ v = []
  | _ => False
  end.

Definition nullary_value (o : nullary) (l : layout) (v : val) : Prop :=
  match o with
  | NUninitialized t => get r t = Ret l /\ v = undefined (size_nat l)
  | NNull _ => l = l_pointer /\ v = pointer 0
  | NSizeOf t => exists lt, get r t = Ret lt /\ get r (CtU 64) = Ret l /\ v = number 8 (Z.of_N (size lt))
  | NAlignOf t => exists lt, get r t = Ret lt /\ get r (CtU 64) = Ret l /\ v = number 8 (Z.of_N (align lt))
  | NGenId => False
  end.

(** [a] is the operand, [al] and [v] the layout and the bytes of its value. *)
Definition unary_value (h : heap) (o : unary) (a : rt) (al : layout) (v : val) (l : layout) (v' : val) : Prop :=
  match o with
  | UNot => al = l_integer 1 /\ l = al /\ exists z, v = [Some z] /\ v' = [Some (Z.lxor z 1)]
  | ULoad =>
      al = l_pointer /\
      exists t p, rt_ty a = Ret (Some (CtPtr t)) /\ get r t = Ret l /\ 0 <= p < 2 ^ 64 /\ v = pointer p /\
      List.length v' = size_nat l /\ reads h p v'
  | USyntaxBody =>
      al = l_syntax /\
      exists t p, rt_ty a = Ret (Some (CtSyntax t)) /\ get r t = Ret l /\ 0 <= p < 2 ^ 64 - 8 /\ v = pointer p /\
      List.length v' = size_nat l /\ reads h (p + 8) v'
  | UStructElem _ i =>
      exists es cs off, composite al = Some (es, cs) /\ nth_error es i = Some (off, l) /\
      (* without this the compiler is wrong, see [struct_elem_exact_refuted] *)
      (off <> 0%N \/ num_eightbytes l <> num_eightbytes al \/ map e_class (eightbytes l) = map e_class (eightbytes al)) /\
      v' = part v off (size l)
  | UReinterpret t =>
      get r t = Ret l /\
      v' = firstn (size_nat l) v ++ undefined (size_nat l - List.length v)
  | UBitCast _ | UPtrToI | UIToPtr _ => l = al /\ v' = v
  | UITrunc t =>
      get r t = Ret l /\ cls al = Integer /\ cls l = Integer /\ composite al = None /\ composite l = None /\
      (size l <= size al <= 8)%N /\ v' = firstn (size_nat l) v
  | UStringPtr | UArrayPtr => size al = 16%N /\ cls al = Integer /\ composite al = None /\ l = l_pointer /\ v' = firstn 8 v
  | UStringLength | UArrayLength => size al = 16%N /\ cls al = Integer /\ composite al = None /\ l = l_integer 8 /\ v' = skipn 8 v
  | UIComplement | UIPopCount =>
      exists w x z, is_int w al x v /\ int_unary o w x = Some z /\ l = al /\ v' = number (bytes w) z
  | USExt t | UUExt t =>
      exists w x w' z, is_int w al x v /\ get r t = Ret l /\ integral w' l /\ extend o w w' x = Some z /\ v' = number (bytes w') z
  | USToF t | UUToF t =>
      exists w x w' z, is_int w al x v /\ get r t = Ret l /\ floating w' l /\ int_to_float o w w' x = Some z /\ v' = number (bytes w') z
  | UFToS t | UFToU t =>
      exists w x w' z, is_float w al x v /\ get r t = Ret l /\ integral w' l /\ float_to_int o w w' x = Some z /\ v' = number (bytes w') z
  | UFTrunc t | UFExt t =>
      exists w x w' z, is_float w al x v /\ get r t = Ret l /\ floating w' l /\ float_to_float o w w' x = Some z /\ v' = number (bytes w') z
  | _ => False
  end.

Definition truth (t : bool) : val := [Some (if t then 1 else 0)].
(** [b] is the second operand.  The heap may change.  Sizes from [2 ^ 31] on are not multiplied correctly. *)
Definition binary_value (h : heap) (o : binary) (b : rt) (al : layout) (v : val) (bl : layout) (w : val)
    (h' : heap) (l : layout) (v' : val) : Prop :=
  match o with
  | BStore =>
      bl = l_pointer /\ exists p, 0 <= p < 2 ^ 64 /\ w = pointer p /\ available h p (List.length v) /\
      h' = put p v h /\ l = l_unit /\ v' = []
  | BStringConstruct | BArrayConstruct =>
      al = l_pointer /\ bl = l_integer 8 /\ h' = h /\ v' = v ++ w /\
      l = match o with BStringConstruct => l_string | _ => l_array end
  | BOffset =>
      exists x p t lt, is_int Q al x v /\ bl = l_pointer /\ w = pointer p /\ rt_ty b = Ret (Some (CtPtr t)) /\
      get r t = Ret lt /\ (size lt < 2 ^ 31)%N /\ h' = h /\ l = l_pointer /\ v' = pointer (p + signed Q x * Z.of_N (size lt))
  | BArrayLoad =>
      exists x p n t, is_int Q al x v /\ is_array p n bl w /\ rt_ty b = Ret (Some (CtArray t)) /\
      get r t = Ret l /\ (size l < 2 ^ 31)%N /\ h' = h /\
      p + x * Z.of_N (size l) < 2 ^ 64 /\ List.length v' = size_nat l /\ reads h (p + x * Z.of_N (size l)) v'
  | BPtrEq | BPtrLt | BPtrLe | BPtrGt | BPtrGe =>
      exists x y t, is_int Q al x v /\ is_int Q bl y w /\ ptr_test o x y = Some t /\ h' = h /\ l = l_integer 1 /\ v' = truth t
  | BIEq | BSLt | BSLe | BSGt | BSGe | BULt | BULe | BUGt | BUGe =>
      exists k x y t, is_int k al x v /\ is_int k bl y w /\ int_test o k x y = Some t /\ h' = h /\ l = l_integer 1 /\ v' = truth t
  | BFEq | BFLt | BFLe | BFGt | BFGe =>
      exists k x y t, is_float k al x v /\ is_float k bl y w /\ float_test o k x y = Some t /\ h' = h /\ l = l_integer 1 /\ v' = truth t
  | BFAdd | BFSub | BFMul | BFDiv =>
      exists k x y z, is_float k al x v /\ is_float k bl y w /\ float_result o k x y = Some z /\ h' = h /\ l = al /\ v' = number (bytes k) z
  | BFRem | BMathPow | BStringEq | BStringCmp | BStringConcat => False
  | _ =>
      exists k x y z, is_int k al x v /\ is_int k bl y w /\ int_result o k x y = Some z /\ h' = h /\ l = bl /\ v' = number (bytes k) z
  end.

(** The forms that first evaluate an expression, and those that first evaluate several. *)
Definition first (x : rt) : option rt :=
  match x with
  | RStaticFun _ _ (Some a) | RUnary _ a | RBinary _ a _ | RIf a _ _ | RReturn a | RTernary _ a _ _ | RAllocArray _ _ a => Some a
  | _ => None
  end.
Definition listed (x : rt) : option (list rt) :=
  match x with
  | RCall f es => Some (es ++ [f])
  | RSeq es _ => Some es
  | _ => None
  end.

(** The elements of an environment at [p], read when a function starts. *)
Fixpoint read_env (h : heap) (p : Z) (es : list param) (e : env) : Prop :=
  match es, e with
  | [], [] => True
  | (id, t) :: es, (id', v) :: e =>
      exists l, get r t = Ret l /\ id' = id /\ List.length v = size_nat l /\ reads h p v /\ read_env h (p + room l) es e
  | _, _ => False
  end.

(** The elements of an environment have types, and take [n] bytes. *)
Inductive env_room : list rt -> N -> Prop :=
| env_room_nil : env_room [] 0
| env_room_cons e es t l n :
    rt_ty e = Ret (Some t) -> get r t = Ret l -> env_room es n -> env_room (e :: es) (Z.to_N (room l) + n).

Definition typed (es : list rt) (ls : list layout) : Prop :=
  Forall2 (fun e l => exists t, rt_ty e = Ret (Some t) /\ get r t = Ret l) es ls.

(** [G] are the variables and [ks] the continuations in scope. *)
Inductive eval : env -> Frame.Spec.conts -> rt -> world -> world -> result -> Prop :=
| e_first G ks x a w w' o : first x = Some a -> eval G ks a w w' o -> abrupt o -> eval G ks x w w' o
| e_listed G ks x es w w' vs o : listed x = Some es -> evals G ks es w w' vs (Some o) -> eval G ks x w w' o
| e_var G ks id t w l v :
    find G id = Some v -> get r t = Ret l -> List.length v = size_nat l -> eval G ks (RVar id t) w w (OVal l v)
| e_fun G ks f t w : eval G ks (RStaticFun (CtId f) t None) w w (OVal l_clos (pointer (fun_address f) ++ pointer 0))
| e_fun_env G ks f t a w w' v :
    eval G ks a w w' (OVal l_pointer v) ->
    eval G ks (RStaticFun (CtId f) t (Some a)) w w' (OVal l_clos (pointer (fun_address f) ++ v))
| e_const G ks c w l v : const_value c l v -> eval G ks (RConst c) w w (OVal l v)
| e_call G ks f es w w1 w2 ts t ls vs id ev l v :
    rt_ty f = Ret (Some (CtClos ts t)) -> get r t = Ret l -> Forall2 (fun t l => get r t = Ret l) ts ls ->
    evals G ks (es ++ [f]) w w1 (combine ls vs ++ [(l_clos, pointer (fun_address id) ++ ev)]) None ->
    List.length vs = List.length ls -> List.length es = List.length ls ->
    apply id ev ls vs w1 w2 l v -> eval G ks (RCall f es) w w2 (OVal l v)
| e_call_c G ks sym t es ls vs l w w1 w2 v :
    get r t = Ret l -> typed es ls -> List.length vs = List.length ls ->
    evals G ks (c_order l ls es) w w1 (c_order l ls (combine ls vs)) None ->
    c_means (symbol sym) (combine ls vs) l w1 w2 v -> eval G ks (RCallC sym t es) w w2 (OVal l v)
| e_call_c_abrupt G ks sym t es ls vs l w w' o :
    get r t = Ret l -> typed es ls -> evals G ks (c_order l ls es) w w' vs (Some o) -> eval G ks (RCallC sym t es) w w' o
| e_call_c_never G ks sym t es vs w w' o :
    Exists (fun e => rt_ty e = Ret None) es -> evals G ks es w w' vs (Some o) -> eval G ks (RCallC sym t es) w w' o
| e_call_addr G ks k f t es ls vs l a w w1 w2 v :
    get r t = Ret l -> typed es ls -> List.length vs = List.length ls -> 0 <= a < 2 ^ 64 ->
    evals G ks (c_order l ls es ++ [f]) w w1 (c_order l ls (combine ls vs) ++ [(l_pointer, pointer a)]) None ->
    c_means a (combine ls vs) l w1 w2 v -> eval G ks (RCallAddr k f t es) w w2 (OVal l v)
| e_call_addr_abrupt G ks k f t es ls vs l w w' o :
    get r t = Ret l -> typed es ls -> evals G ks (c_order l ls es ++ [f]) w w' vs (Some o) ->
    eval G ks (RCallAddr k f t es) w w' o
| e_call_addr_never G ks k f t es vs w w' o :
    Exists (fun e => rt_ty e = Ret None) es -> evals G ks es w w' vs (Some o) -> eval G ks (RCallAddr k f t es) w w' o
| e_jump G ks k ps es t w w' ls vs :
    find ks k = Some ps -> evals G ks es w w' (combine ls vs) None -> List.length vs = List.length ls ->
    Forall2 (fun p l => get r (snd p) = Ret l) ps ls ->
    eval G ks (RContCall k es t) w w' (OJump k vs)
| e_jump_abrupt G ks k ps es t w w' vs o :
    find ks k = Some ps -> List.length es = List.length ps -> evals G ks es w w' vs (Some o) ->
    Forall2 (fun p v => get r (snd p) = Ret (fst v)) (firstn (List.length vs) ps) vs ->
    eval G ks (RContCall k es t) w w' o
| e_nullary G ks o w l v : nullary_value o l v -> eval G ks (RNullary o) w w (OVal l v)
| e_unary G ks o a w w' al v l v' :
    eval G ks a w w' (OVal al v) -> unary_value (snd w') o a al v l v' -> eval G ks (RUnary o a) w w' (OVal l v')
| e_binary G ks o a b w w1 w2 al v bl v2 h l v' :
    eval G ks a w w1 (OVal al v) -> eval G ks b w1 w2 (OVal bl v2) ->
    binary_value (snd w2) o b al v bl v2 h l v' -> eval G ks (RBinary o a b) w (fst w2, h) (OVal l v')
| e_binary_second G ks o a b w w1 w2 al v x :
    eval G ks a w w1 (OVal al v) -> eval G ks b w1 w2 x -> abrupt x -> eval G ks (RBinary o a b) w w2 x
| e_genid G ks w w' v :
    c_means (symbol (t_ "llrt_string_genid")) [] l_string w w' v -> eval G ks (RNullary NGenId) w w' (OVal l_string v)
| e_unary_c G ks o a w w1 w2 k f al v v' :
    eval G ks a w w1 (OVal al v) -> floating k al -> unary_function o k = Some f ->
    c_means (symbol f) [(al, v)] al w1 w2 v' -> eval G ks (RUnary o a) w w2 (OVal al v')
| e_binary_c G ks o a b w w1 w2 w3 k f al v bl v2 v' :
    eval G ks a w w1 (OVal al v) -> eval G ks b w1 w2 (OVal bl v2) -> floating k al -> floating k bl -> binary_function o k = Some f ->
    c_means (symbol f) [(al, v); (bl, v2)] al w2 w3 v' -> eval G ks (RBinary o a b) w w3 (OVal al v')
| e_string G ks o a b w w1 w2 w3 f v v2 l v' :
    eval G ks a w w1 (OVal l_string v) -> eval G ks b w1 w2 (OVal l_string v2) -> string_function o = Some (f, l) ->
    c_means (symbol f) [(l_string, v); (l_string, v2)] l w2 w3 v' -> eval G ks (RBinary o a b) w w3 (OVal l v')
| e_array_store G ks a b c w w1 w2 w3 al x vx l v la va p n :
    eval G ks a w w1 (OVal al vx) -> is_int Q al x vx -> eval G ks b w1 w2 (OVal l v) ->
    eval G ks c w2 w3 (OVal la va) -> is_array p n la va ->
    (size l < 2 ^ 31)%N -> p + x * Z.of_N (size l) < 2 ^ 64 -> available (snd w3) (p + x * Z.of_N (size l)) (List.length v) ->
    eval G ks (RTernary TArrayStore a b c) w (fst w3, put (p + x * Z.of_N (size l)) v (snd w3)) (OVal l_unit [])
(** From the first operand to the third one, as many elements as the second one says. *)
| e_copy G ks o a b c f w w1 w2 w3 w4 v bl x vx v3 t l v' :
    eval G ks a w w1 (OVal l_pointer v) -> eval G ks b w1 w2 (OVal bl vx) -> is_int Q bl x vx -> eval G ks c w2 w3 (OVal l_pointer v3) ->
    rt_ty c = Ret (Some (CtPtr t)) -> get r t = Ret l -> (size l < 2 ^ 31)%N ->
    match o with TPtrCopy => f = t_ "memcpy" | TPtrMove => f = t_ "memmove" | TArrayStore => False end ->
    c_means (symbol f) [(l_pointer, v3); (l_pointer, v); (l_integer 8, number 8 (x * Z.of_N (size l)))] l_pointer w3 w4 v' ->
    eval G ks (RTernary o a b c) w w4 (OVal l_unit [])
| e_ternary_second G ks o a b c w w1 w2 al v x :
    eval G ks a w w1 (OVal al v) -> eval G ks b w1 w2 x -> abrupt x -> eval G ks (RTernary o a b c) w w2 x
| e_ternary_third G ks o a b c w w1 w2 w3 al v bl v2 x :
    eval G ks a w w1 (OVal al v) -> eval G ks b w1 w2 (OVal bl v2) -> eval G ks c w2 w3 x -> abrupt x -> eval G ks (RTernary o a b c) w w3 x
| e_alloc_array G ks loc t a l al x v w w1 w2 p :
    loc <> LStackStatic -> get r t = Ret l -> (size l < 2 ^ 31)%N -> eval G ks a w w1 (OVal al v) -> is_int Q al x v ->
    x * Z.of_N (size l) < 2 ^ 64 -> allocates w1 (Z.to_N x * size l) w2 p ->
    eval G ks (RAllocArray loc t a) w w2 (OVal l_array (pointer p ++ v))
| e_alloc G ks loc a t l w w1 w2 p v :
    loc <> LStackStatic -> rt_ty a = Ret (Some t) -> get r t = Ret l -> allocates w (size l) w1 p ->
    eval G ks a w1 w2 (OVal l v) -> available (snd w2) p (List.length v) ->
    eval G ks (RAlloc loc a) w (fst w2, put p v (snd w2)) (OVal l_pointer (pointer p))
| e_alloc_abrupt G ks loc a t l w w1 w2 p o :
    loc <> LStackStatic -> rt_ty a = Ret (Some t) -> get r t = Ret l -> allocates w (size l) w1 p ->
    eval G ks a w1 w2 o -> abrupt o -> eval G ks (RAlloc loc a) w w2 o
| e_alloc_never G ks loc a w w' o :
    loc <> LStackStatic -> rt_ty a = Ret None -> eval G ks a w w' o -> abrupt o -> eval G ks (RAlloc loc a) w w' o
| e_env G ks loc es n w w1 w2 p :
    loc <> LStackStatic -> env_room es n -> allocates w n w1 p -> fill G ks p es w1 w2 None ->
    eval G ks (RConstructEnv loc es) w w2 (OVal l_pointer (pointer p))
| e_env_abrupt G ks loc es n w w1 w2 p o :
    loc <> LStackStatic -> env_room es n -> allocates w n w1 p -> fill G ks p es w1 w2 (Some o) ->
    eval G ks (RConstructEnv loc es) w w2 o
| e_env_never G ks loc es w w' vs o :
    loc <> LStackStatic -> Exists (fun e => rt_ty e = Ret None) es -> evals G ks es w w' vs (Some o) ->
    eval G ks (RConstructEnv loc es) w w' o
| e_struct G ks t es l elems cs ls vs w w' :
    get r t = Ret l -> composite l = Some (elems, cs) -> ls = map snd elems ->
    evals G ks es w w' (combine ls vs) None -> List.length vs = List.length ls ->
    eval G ks (RConstructStruct t es) w w' (OVal l (patches elems vs (undefined (size_nat l))))
| e_struct_abrupt G ks t es l elems cs vs w w' o :
    get r t = Ret l -> composite l = Some (elems, cs) -> List.length es = List.length elems ->
    evals G ks es w w' vs (Some o) -> map fst vs = firstn (List.length vs) (map snd elems) ->
    eval G ks (RConstructStruct t es) w w' o
| e_seq G ks es a vs w w1 w2 o :
    evals G ks es w w1 vs None -> eval G ks a w1 w2 o -> eval G ks (RSeq es a) w w2 o
| e_if G ks c t e z w w1 w2 o :
    eval G ks c w w1 (OVal (l_integer 1) [Some z]) -> eval G ks (if z =? 0 then e else t) w1 w2 o ->
    eval G ks (RIf c t e) w w2 o
| e_while_cond G ks c b w w1 o : eval G ks c w w1 o -> abrupt o -> eval G ks (RWhile c b) w w1 o
| e_while_end G ks c b w w1 :
    eval G ks c w w1 (OVal (l_integer 1) [Some 0]) -> eval G ks (RWhile c b) w w1 (OVal l_unit [])
| e_while_body G ks c b z w w1 w2 o :
    eval G ks c w w1 (OVal (l_integer 1) [Some z]) -> z <> 0 -> eval G ks b w1 w2 o -> abrupt o ->
    eval G ks (RWhile c b) w w2 o
| e_while_again G ks c b z l v w w1 w2 w3 o :
    eval G ks c w w1 (OVal (l_integer 1) [Some z]) -> z <> 0 -> eval G ks b w1 w2 (OVal l v) ->
    eval G ks (RWhile c b) w2 w3 o -> eval G ks (RWhile c b) w w3 o
| e_return G ks a w w' l v : eval G ks a w w' (OVal l v) -> eval G ks (RReturn a) w w' (ORet l v)
| e_let G ks vs b G' w w1 w2 o :
    lets G ks vs w w1 (inl G') -> eval G' ks b w1 w2 o -> eval G ks (RLetVar vs b) w w2 o
| e_let_abrupt G ks vs b w w1 o : lets G ks vs w w1 (inr o) -> eval G ks (RLetVar vs b) w w1 o
| e_scope G ks cs b w w' o :
    eval G (map Frame.Spec.cont_entry cs ++ ks) b w w' o ->
    (forall k vs, o = OJump k vs -> ~ In k (map fst (map Frame.Spec.cont_entry cs))) ->
    eval G ks (RLetCont cs b) w w' o
| e_cont G ks cs b k ps y vs w w1 w2 o :
    eval G (map Frame.Spec.cont_entry cs ++ ks) b w w1 (OJump k vs) -> In (k, ps, y) cs ->
    List.length vs = List.length ps -> eval (combine (map fst ps) vs ++ G) ks y w1 w2 o ->
    eval G ks (RLetCont cs b) w w2 o
(** Expressions evaluated one after the other: the values, and what is done instead of going on. *)
with evals : env -> Frame.Spec.conts -> list rt -> world -> world -> list (layout * val) -> option result -> Prop :=
| evals_nil G ks w : evals G ks [] w w [] None
| evals_stop G ks e es w w' o : eval G ks e w w' o -> abrupt o -> evals G ks (e :: es) w w' [] (Some o)
| evals_cons G ks e es w w1 w2 l v vs x :
    eval G ks e w w1 (OVal l v) -> evals G ks es w1 w2 vs x -> evals G ks (e :: es) w w2 ((l, v) :: vs) x
(** The same for the elements of an environment, which are put at [p] and after. *)
with fill : env -> Frame.Spec.conts -> Z -> list rt -> world -> world -> option result -> Prop :=
| fill_nil G ks p w : fill G ks p [] w w None
| fill_stop G ks p e es w w' o : eval G ks e w w' o -> abrupt o -> fill G ks p (e :: es) w w' (Some o)
| fill_cons G ks p e es w w1 w2 t l v x :
    rt_ty e = Ret (Some t) -> get r t = Ret l ->
    eval G ks e w w1 (OVal l v) -> available (snd w1) p (Z.to_nat (room l)) ->
    fill G ks (p + room l) es (fst w1, put p (v ++ undefined (Z.to_nat (room l) - List.length v)) (snd w1)) w2 x ->
    fill G ks p (e :: es) w w2 x
(** Variables are in scope as soon as they have a value. *)
with lets : env -> Frame.Spec.conts -> list (nat * ct * rt) -> world -> world -> env + result -> Prop :=
| lets_nil G ks w : lets G ks [] w w (inl G)
| lets_stop G ks id t e vs w w' o : eval G ks e w w' o -> abrupt o -> lets G ks ((id, t, e) :: vs) w w' (inr o)
| lets_cons G ks id t e vs w w1 w2 l v x :
    get r t = Ret l -> eval G ks e w w1 (OVal l v) -> lets ((id, v) :: G) ks vs w1 w2 x ->
    lets G ks ((id, t, e) :: vs) w w2 x
(** A call of a function with the environment [ev] and arguments of the layouts [ls]. *)
with apply : nat -> val -> list layout -> list val -> world -> world -> layout -> val -> Prop :=
| apply_body id f ev ls vs G w w' l v o :
    functions id = Some f -> Frame.Model.f_kind f = Frame.Model.Standard ->
    Forall2 (fun p l => get r (snd p) = Ret l) (Frame.Model.f_params f) ls ->
    Forall2 (fun l v => List.length v = size_nat l) ls vs ->
    match Frame.Model.f_env f with
    | None => G = []
    | Some (e, es) => exists p G', 0 <= p < 2 ^ 64 /\ ev = pointer p /\ read_env (snd w) p es G' /\ G = (e, ev) :: G'
    end ->
    get r (Frame.Model.f_ret f) = Ret l ->
    eval (G ++ combine (map fst (Frame.Model.f_params f)) vs) [] (Frame.Model.f_body f) w w' o ->
    o = OVal l v \/ o = ORet l v ->
    apply id ev ls vs w w' l v.

End Meaning.

(** ** Expressions the code is right for

    The three restrictions are on what the compiler gets wrong; see DESIGN.md. *)

(** No jump to a local continuation. *)
Inductive jumpless : rt -> Prop :=
| jumpless_node x : (forall k es t, x <> RContCall k es t) -> Forall jumpless (children x) -> jumpless x.

Section Fine.
(** The code of a loop body ends at the depth it starts with, see [Model.gen]. *)
Variable balanced : rt -> Prop.

Definition introduced (x : rt) : list nat :=
  match x with RLetCont ks _ => map (fun k => fst (fst k)) ks | _ => [] end.
Definition own_fine (used : list nat) (x : rt) : Prop :=
  match x with
  | RCall f _ => rt_ty f <> Ret None
  | RWhile _ b => balanced b
  | RContCall _ es _ => Forall jumpless es
  | _ => True
  end /\
  (* continuations have names of their own *)
  NoDup (introduced x) /\ (forall k, In k (introduced x) -> ~ In k used).
Inductive fine : list nat -> rt -> Prop :=
| fine_node used x : own_fine used x -> Forall (fine (introduced x ++ used)) (children x) -> fine used x.
End Fine.
