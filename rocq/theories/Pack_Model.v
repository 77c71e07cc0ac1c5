(** Model of src/pack (delta_list.rs, vm.rs, node_encode.rs, toplevel.rs) and
    of the node-path encoding in src/pdata/btree_error.rs. *)
From Verif Require Import Base Csum_Model Codec_Model.

(** u64 wrapping arithmetic (Rust's wrapping_add / wrapping_sub / wrapping_mul);
    [a] and [b] are below 2^64. *)
Definition wadd (a b : N) : N := (a + b) mod W64.
Definition wsub (a b : N) : N := (a + (W64 - b)) mod W64.
Definition wmul (a b : N) : N := (a * b) mod W64.

(** pack/delta_list.rs:3-9 *)
Inductive delta :=
| DBase (n : N)
| DConst (count : N)
| DPos (d count : N)
| DNeg (d count : N).

(** The inner while loops of to_delta (pack/delta_list.rs:29-32, 39-42, 49-53):
    [count] goes up while [test ns[i] count] holds. Returns the final count and
    the words not consumed. *)
Fixpoint span_count (test : N -> N -> bool) (count : N) (l : list N) : N * list N :=
  match l with
  | [] => (count, [])
  | n :: r => if test n count then span_count test (count + 1) r else (count, l)
  end.

(** pack/delta_list.rs:23-60, the outer while loop.  Every iteration consumes at
    least one word, so [length ns] iterations are enough; the round-trip theorem
    shows that the fuel never cuts the loop short. *)
Fixpoint to_delta_loop (fuel : nat) (base : N) (l : list N) : list delta :=
  match fuel with
  | O => []
  | S f =>
      match l with
      | [] => []
      | n :: _ =>
          if n <? base then
            let d := base - n in
            let '(c, r) := span_count (fun x c => wadd x (wmul c d) =? base) 1 l in
            let c := c - 1 in
            DNeg d c :: to_delta_loop f (wsub base (wmul d c)) r
          else if n =? base then
            let '(c, r) := span_count (fun x _ => x =? base) 1 l in
            let c := c - 1 in
            DConst c :: to_delta_loop f base r
          else
            let d := n - base in
            let '(c, r) := span_count (fun x c => x =? wadd base (wmul c d)) 1 l in
            let c := c - 1 in
            DPos d c :: to_delta_loop f (wadd base (wmul d c)) r
      end
  end.

(** pack/delta_list.rs:13-63 *)
Definition to_delta (ns : list N) : list delta :=
  match ns with
  | [] => []
  | b :: r => DBase b :: to_delta_loop (length r) b r
  end.

(** [n] times: move the base by [step], then emit it. *)
Fixpoint emit_steps (step : N -> N) (n : nat) (base : N) : N * list N :=
  match n with
  | O => (base, [])
  | S n' => let base := step base in
            let '(b, l) := emit_steps step n' base in (b, base :: l)
  end.

(** pack/delta_list.rs:69-100 (in the test module): one delta ... *)
Definition from_delta1 (base : N) (d : delta) : N * list N :=
  match d with
  | DBase n => (n, [n])
  | DConst c => (base, repeat base (N.to_nat c))
  | DPos d c => emit_steps (fun b => wadd b d) (N.to_nat c) base
  | DNeg d c => emit_steps (fun b => wsub b d) (N.to_nat c) base
  end.
(** ... and all of them, from base 0. *)
Fixpoint from_delta_loop (base : N) (ds : list delta) : list N :=
  match ds with
  | [] => []
  | d :: r => let '(b, l) := from_delta1 base d in l ++ from_delta_loop b r
  end.
Definition from_delta (ds : list delta) : list N := from_delta_loop 0 ds.

(** pack/vm.rs:15-36, discriminants of the tags. *)
Definition T_Set : N := 0.     Definition T_Pos : N := 1.    Definition T_PosW : N := 2.
Definition T_Neg : N := 3.     Definition T_NegW : N := 4.   Definition T_Const : N := 5.
Definition T_Const8 : N := 6.  Definition T_Count : N := 7.  Definition T_Count8 : N := 8.
Definition T_Lit : N := 9.     Definition T_LitW : N := 10.  Definition T_ShiftedRun : N := 11.

(** pack/vm.rs:38-44; the writer is a growing buffer, so writing cannot fail:
    a packing function returns the bytes it appends, [Panic] is a failed
    assertion. *)
Definition pack_tag (t nibble : N) : res (list N) :=
  if nibble <? 16 then Ok [N.lor (N.shiftl t 4) nibble] else Panic.

(** pack/vm.rs:46-62 *)
Definition pack_count (count : N) : res (list N) :=
  if count =? 1 then Ok []
  else if count <? 16 then pack_tag T_Count count
  else if count <? 4096 then
    t <- pack_tag T_Count8 (N.shiftr count 8) ;;
    Ok (t ++ [N.land count 255])
  else Panic.

(** The width ladder shared by pack_delta's arms (pack/vm.rs:68-81, 86-98,
    104-116) and pack_literal (180-190): a tag with the operand's width, then
    the operand. *)
Definition pack_wide (tag n : N) : res (list N) :=
  if n <=? 255 then t <- pack_tag tag 1 ;; Ok (t ++ le_enc 1 n)
  else if n <=? 65535 then t <- pack_tag tag 2 ;; Ok (t ++ le_enc 2 n)
  else if n <=? 4294967295 then t <- pack_tag tag 4 ;; Ok (t ++ le_enc 4 n)
  else t <- pack_tag tag 8 ;; Ok (t ++ le_enc 8 n).

(** pack/vm.rs:64-132 *)
Definition pack_delta (d : delta) : res (list N) :=
  match d with
  | DBase n => pack_wide T_Set n
  | DPos d c =>
      h <- pack_count c ;;
      t <- (if d <? 16 then pack_tag T_Pos d else pack_wide T_PosW d) ;;
      Ok (h ++ t)
  | DNeg d c =>
      h <- pack_count c ;;
      t <- (if d <? 16 then pack_tag T_Neg d else pack_wide T_NegW d) ;;
      Ok (h ++ t)
  | DConst c =>
      if c <? 16 then pack_tag T_Const c
      else if c <? 4096 then
        t <- pack_tag T_Const8 (N.shiftr c 8) ;;
        Ok (t ++ [N.land c 255])
      else Panic
  end.

(** pack/vm.rs:134-139 *)
Fixpoint pack_deltas (ds : list delta) : res (list N) :=
  match ds with
  | [] => Ok []
  | d :: r => a <- pack_delta d ;; b <- pack_deltas r ;; Ok (a ++ b)
  end.

(** pack/vm.rs:143-146 *)
Definition pack_u64s (ns : list N) : res (list N) := pack_deltas (to_delta ns).

(** pack/vm.rs:148-159 with shift = 24, and 161-170 *)
Definition mask24 : N := N.shiftl 1 24 - 1.
Definition unshift_high (ns : list N) : list N := map (fun n => N.shiftr n 24) ns.
Definition unshift_low (ns : list N) : list N := map (fun n => N.land n mask24) ns.
Definition pack_shifted_u64s (ns : list N) : res (list N) :=
  let len := nlen ns in
  t <- pack_tag T_ShiftedRun (N.shiftr len 8) ;;
  h <- pack_u64s (unshift_high ns) ;;
  l <- pack_u64s (unshift_low ns) ;;
  Ok (t ++ [N.land len 255] ++ h ++ l).

(** pack/vm.rs:172-192 *)
Definition pack_literal (bs : list N) : res (list N) :=
  let len := nlen bs in
  t <- (if len <? 16 then pack_tag T_Lit len else pack_wide T_LitW len) ;;
  Ok (t ++ bs).

(** ** The VM *)

(** std::io::Read::read_u8 / read_exact on an in-memory reader: an error at the
    end of the input. *)
Definition read_u8 (i : list N) : res (N * list N) :=
  match i with [] => Err | b :: r => Ok (b, r) end.

(** pack/vm.rs:196-207 *)
Definition unpack_with_width (nibble : N) (i : list N) : res (N * list N) :=
  if nibble =? 1 then p_le 1 i
  else if nibble =? 2 then p_le 2 i
  else if nibble =? 4 then p_le 4 i
  else if nibble =? 8 then p_le 8 i
  else Panic.

(** pack/vm.rs:209-216 *)
Definition unpack_u64s (count : nat) (i : list N) : res (list N) :=
  ' (ns, _) <- p_count p_u64 count i ;; Ok ns.

(** The bytes of a sequence of 64-bit words. *)
Definition words (ns : list N) : list N := flat_map (le_enc 8) ns.

(** pack/vm.rs:345-347, one combined word. *)
Definition combine1 (h l : N) : N := N.lor (N.shiftl h 24 mod W64) (N.land l mask24).
Fixpoint combine (hs ls : list N) : list N :=
  match hs, ls with
  | h :: hs, l :: ls => combine1 h l :: combine hs ls
  | _, _ => []
  end.

(** pack/vm.rs:248-356 (unpack_instr) and 359-370 (exec).

    The VM state is the base word; [bytes_written] is the number of bytes
    emitted so far in the current exec (the "hack" lines 333 and 339 subtract
    exactly what a nested exec added), here the length of the output list.
    [vm_instr] returns the new base, the bytes emitted and the input left;
    [vm_exec ... target emitted] runs while fewer than [target] bytes have been
    emitted.  Fuel bounds the recursion depth; every instruction reads at least
    one byte, and [vm_fuel] below is always enough (Pack_Proofs.vm_fuel_enough). *)
Fixpoint vm_instr (f : nat) (base : N) (count : nat) (i : list N) {struct f}
  : res (N * list N * list N) :=
  match f with
  | O => Panic
  | S f =>
      ' (b, i) <- read_u8 i ;;
      let kind := N.shiftr b 4 in
      let nibble := N.land b 15 in
      let steps step i :=
        let '(b, l) := emit_steps step count base in Ok (b, words l, i) in
      if kind =? T_Set then
        ' (v, i) <- unpack_with_width nibble i ;;
        Ok (v, words (repeat v count), i)
      else if kind =? T_Pos then steps (fun b => wadd b nibble) i
      else if kind =? T_PosW then
        ' (d, i) <- unpack_with_width nibble i ;; steps (fun b => wadd b d) i
      else if kind =? T_Neg then steps (fun b => wsub b nibble) i
      else if kind =? T_NegW then
        ' (d, i) <- unpack_with_width nibble i ;; steps (fun b => wsub b d) i
      else if kind =? T_Const then
        if Nat.eqb count 1 then Ok (base, words (repeat base (N.to_nat nibble)), i) else Panic
      else if kind =? T_Const8 then
        if Nat.eqb count 1 then
          ' (c, i) <- read_u8 i ;;
          Ok (base, words (repeat base (N.to_nat (N.lor (N.shiftl nibble 8) c))), i)
        else Panic
      else if kind =? T_Count then vm_instr f base (N.to_nat nibble) i
      else if kind =? T_Count8 then
        ' (c, i) <- read_u8 i ;;
        vm_instr f base (N.to_nat (N.lor (N.shiftl nibble 8) c)) i
      else if kind =? T_Lit then
        if Nat.eqb count 1 then
          ' (bs, i) <- p_take (N.to_nat nibble) i ;; Ok (base, bs, i)
        else Panic
      else if kind =? T_LitW then
        if Nat.eqb count 1 then
          ' (len, i) <- unpack_with_width nibble i ;;
          ' (bs, i) <- p_take (N.to_nat len) i ;; Ok (base, bs, i)
        else Panic
      else if kind =? T_ShiftedRun then
        ' (c, i) <- read_u8 i ;;
        let len := N.to_nat (N.lor (N.shiftl nibble 8) c) in
        ' (base, hb, i) <- vm_exec f base (8 * len) [] i ;;
        high <- unpack_u64s len hb ;;
        ' (base, lb, i) <- vm_exec f base (8 * len) [] i ;;
        low <- unpack_u64s len lb ;;
        Ok (base, words (combine high low), i)
      else Panic
  end
with vm_exec (f : nat) (base : N) (target : nat) (emitted i : list N) {struct f}
  : res (N * list N * list N) :=
  match f with
  | O => Panic
  | S f =>
      if Nat.ltb (length emitted) target then
        ' (base, o, i) <- vm_instr f base 1 i ;;
        vm_exec f base target (emitted ++ o) i
      else Ok (base, emitted, i)
  end.

Definition vm_fuel (i : list N) : nat := S (2 * length i).

(** VM::new() followed by exec (pack/vm.rs:223-228, 359-370). *)
Definition vm_run (target : nat) (i : list N) : res (N * list N * list N) :=
  vm_exec (vm_fuel i) 0 target [] i.

(** pack/vm.rs:379-389; the bytes and the input left unread (the reader is
    shared with the caller). *)
Definition vm_unpack (count : nat) (i : list N) : res (list N * list N) :=
  ' (_, w, i) <- vm_run count i ;;
  if Nat.eqb (length w) count then Ok (w, i) else Panic.

(** ** node_encode.rs *)

(** pack/node_encode.rs:36-58 *)
Record node_summary := mksummary { ns_leaf : bool; ns_max : N; ns_vsize : N }.
Definition summarise_node (data : list N) : res node_summary :=
  ' (_, i) <- p_u32 data ;; ' (flags, i) <- p_u32 i ;; ' (_, i) <- p_u64 i ;;
  ' (_, i) <- p_u32 i ;; ' (mx, i) <- p_u32 i ;; ' (vs, i) <- p_u32 i ;;
  ' (_, i) <- p_u32 i ;;
  Ok (mksummary (flags =? 2) mx vs).

(** pack/node_encode.rs:31-34: nom's many_m_n(count, count, le_u64) is
    [count] applications, failing on a short input. *)
Definition run64 (i : list N) (count : N) : res (list N * list N) :=
  p_count p_u64 (N.to_nat count) i.

(** pack/node_encode.rs:60-100 *)
Definition pack_btree_node (data : list N) : res (list N) :=
  info <- summarise_node data ;;
  ' (hdr, i) <- p_take 32 data ;;
  ' (keys, i) <- run64 i (ns_max info) ;;
  let lit_unless_empty tail := match tail with [] => Ok [] | _ => pack_literal tail end in
  if ns_leaf info then
    if ns_vsize info =? 8 then
      ' (values, tail) <- run64 i (ns_max info) ;;
      a <- pack_literal hdr ;; b <- pack_u64s keys ;; c <- pack_shifted_u64s values ;;
      d <- lit_unless_empty tail ;;
      Ok (a ++ b ++ c ++ d)
    else
      a <- pack_literal hdr ;; b <- pack_u64s keys ;; c <- pack_literal i ;;
      Ok (a ++ b ++ c)
  else
    ' (values, tail) <- run64 i (ns_max info) ;;
    a <- pack_literal hdr ;; b <- pack_u64s keys ;; c <- pack_u64s values ;;
    d <- lit_unless_empty tail ;;
    Ok (a ++ b ++ c ++ d).

(** pack/toplevel.rs:204-217; pack_superblock/bitmap/index/array are
    pack_literal (pack/node_encode.rs:102-116). *)
Definition pack_block (kind : BT) (buf : list N) : res (list N) :=
  match kind with
  | NODE => pack_btree_node buf
  | UNKNOWN => Err
  | _ => pack_literal buf
  end.

(** ** Node paths, pdata/btree_error.rs:226-285.

    The base64 text is not modelled: data_encoding::BASE64 (external crate)
    encodes [n] bytes as 4*ceil(n/3) characters, and [decode_len] of that is
    3*ceil(n/3), the bytes past [n] staying zero in the decode buffer.  So a
    "text" here is the byte string it encodes. *)
Definition u8 (n : N) : N := n mod 256.
Definition encode_node_path (path : list N) : res (list N) :=
  if Nat.ltb (length path) 256 then
    match path with
    | 0 :: r => c <- pack_u64s r ;; Ok (u8 (N.shiftl (u8 (nlen path) - 1) 1) :: c)
    | _ => c <- pack_u64s path ;; Ok (N.lor (u8 (N.shiftl (u8 (nlen path)) 1)) 1 :: c)
    end
  else Panic.

(** The 128-byte decode buffer, sliced to [decode_len] bytes: panics when the
    text is longer. *)
Definition decode_buffer (text : list N) : res (list N) :=
  let n := Nat.mul 3 (Nat.div (length text + 2) 3) in
  if Nat.leb n 128 then Ok (text ++ repeat 0 (n - length text)) else Panic.

Definition decode_node_path (text : list N) : res (list N) :=
  buf <- decode_buffer text ;;
  ' (c, i) <- read_u8 buf ;;
  let prepend_zero := N.land c 1 =? 0 in
  let count := N.to_nat (N.shiftr c 1) in
  path <- (if Nat.eqb count 0 then Ok [] else
             ' (_, out, _) <- vm_run (count * 8) i ;;
             if Nat.eqb (length out) (count * 8) then unpack_u64s count out else Panic) ;;
  Ok (if prepend_zero then 0 :: path else path).
