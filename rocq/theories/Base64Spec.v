(** RFC 4648 encodings, described by the numbers the groups stand for. *)
From Coq Require Import List Bool ZArith String Ascii.
Import ListNotations.
Local Open Scope Z_scope.

Definition codes (s : string) : list Z := map (fun c => Z.of_nat (nat_of_ascii c)) (list_ascii_of_string s).
(** RFC 4648, tables 1 to 5 *)
Definition alnum64 : list Z := codes "ABCDEFGHIJKLMNOPQRSTUVWXYZabcdefghijklmnopqrstuvwxyz0123456789".
Definition alphabet64 : list Z := alnum64 ++ codes "+/".
Definition alphabet64url : list Z := alnum64 ++ codes "-_".
Definition alphabet32 : list Z := codes "ABCDEFGHIJKLMNOPQRSTUVWXYZ234567".
Definition alphabet32hex : list Z := codes "0123456789ABCDEFGHIJKLMNOPQRSTUV".
Definition alphabet16 : list Z := codes "0123456789ABCDEF".
Definition alphabet16lc : list Z := codes "0123456789abcdef".
Definition pad : Z := 61.

Definition is_byte (b : Z) : Prop := 0 <= b < 256.
Definition digit (alpha : list Z) (v : Z) : Z := nth (Z.to_nat v) alpha 0.
(** the value of a character: its position in the alphabet *)
Fixpoint value (alpha : list Z) (c : Z) : option Z :=
  match alpha with
  | [] => None
  | d :: r => if c =? d then Some 0 else option_map Z.succ (value r c)
  end.

(** The n digits, most significant first, of x in base b. *)
Fixpoint to_base (b : Z) (n : nat) (x : Z) : list Z :=
  match n with O => [] | S m => x / b ^ Z.of_nat m mod b :: to_base b m x end.
(** The number a list of digits stands for, most significant first. *)
Definition from_base (b : Z) (l : list Z) : Z := fold_left (fun acc d => acc * b + d) l 0.

(** RFC 4648 section 4: three bytes are four digits; a last group of one or two bytes is padded on
    the right with zero bits, and only the digits holding some data are written, followed by pads. *)
Fixpoint rfc64 (alpha : list Z) (padding : bool) (bs : list Z) : list Z :=
  match bs with
  | [] => []
  | [a] => map (digit alpha) (firstn 2 (to_base 64 4 (from_base 256 [a; 0; 0]))) ++ (if padding then [pad; pad] else [])
  | [a; b] => map (digit alpha) (firstn 3 (to_base 64 4 (from_base 256 [a; b; 0]))) ++ (if padding then [pad] else [])
  | a :: b :: c :: r => map (digit alpha) (to_base 64 4 (from_base 256 [a; b; c])) ++ rfc64 alpha padding r
  end.
(** RFC 4648 section 6: five bytes are eight digits. *)
Fixpoint rfc32 (alpha : list Z) (padding : bool) (bs : list Z) : list Z :=
  match bs with
  | [] => []
  | [a] => map (digit alpha) (firstn 2 (to_base 32 8 (from_base 256 [a; 0; 0; 0; 0]))) ++ (if padding then repeat pad 6 else [])
  | [a; b] => map (digit alpha) (firstn 4 (to_base 32 8 (from_base 256 [a; b; 0; 0; 0]))) ++ (if padding then repeat pad 4 else [])
  | [a; b; c] => map (digit alpha) (firstn 5 (to_base 32 8 (from_base 256 [a; b; c; 0; 0]))) ++ (if padding then repeat pad 3 else [])
  | [a; b; c; d] => map (digit alpha) (firstn 7 (to_base 32 8 (from_base 256 [a; b; c; d; 0]))) ++ (if padding then [pad] else [])
  | a :: b :: c :: d :: e :: r => map (digit alpha) (to_base 32 8 (from_base 256 [a; b; c; d; e])) ++ rfc32 alpha padding r
  end.
(** RFC 4648 section 8 *)
Definition rfc16 (alpha : list Z) (bs : list Z) : list Z := flat_map (fun b => map (digit alpha) (to_base 16 2 b)) bs.

(** A newline after every w characters ([room] is what is left on the current line). *)
Fixpoint break_lines (w room : Z) (s : list Z) : list Z :=
  match s with
  | [] => []
  | c :: r => if room =? 1 then c :: 10 :: break_lines w w r else c :: break_lines w (room - 1) r
  end.
Definition wrapped (line_width : option Z) (s : list Z) : list Z :=
  match line_width with
  | Some w => if 0 <? w then break_lines w w s else s
  | None => s
  end.
(** every maximal run without newline has at most w characters *)
Fixpoint lines_within (w used : Z) (s : list Z) : Prop :=
  match s with
  | [] => True
  | c :: r => if c =? 10 then lines_within w 0 r else used < w /\ lines_within w (used + 1) r
  end.

(** What a decoder reads: everything before the first pad; characters without a value are noise. *)
Fixpoint before_pad (s : list Z) : list Z :=
  match s with [] => [] | c :: r => if c =? pad then [] else c :: before_pad r end.
Definition values (val : Z -> option Z) (s : list Z) : list Z :=
  flat_map (fun c => match val c with Some v => [v] | None => [] end) s.
(** four digits are three bytes; of an incomplete last group, only the complete bytes *)
Fixpoint bytes64 (ds : list Z) : list Z :=
  match ds with
  | a :: b :: c :: d :: r => to_base 256 3 (from_base 64 [a; b; c; d]) ++ bytes64 r
  | [a; b; c] => firstn 2 (to_base 256 3 (from_base 64 [a; b; c; 0]))
  | [a; b] => firstn 1 (to_base 256 3 (from_base 64 [a; b; 0; 0]))
  | _ => []
  end.
Fixpoint bytes32 (ds : list Z) : list Z :=
  match ds with
  | a :: b :: c :: d :: e :: f :: g :: h :: r => to_base 256 5 (from_base 32 [a; b; c; d; e; f; g; h]) ++ bytes32 r
  | [a; b; c; d; e; f; g] => firstn 4 (to_base 256 5 (from_base 32 [a; b; c; d; e; f; g; 0]))
  | [a; b; c; d; e; f] => firstn 3 (to_base 256 5 (from_base 32 [a; b; c; d; e; f; 0; 0]))
  | [a; b; c; d; e] => firstn 3 (to_base 256 5 (from_base 32 [a; b; c; d; e; 0; 0; 0]))
  | [a; b; c; d] => firstn 2 (to_base 256 5 (from_base 32 [a; b; c; d; 0; 0; 0; 0]))
  | [a; b; c] => firstn 1 (to_base 256 5 (from_base 32 [a; b; c; 0; 0; 0; 0; 0]))
  | [a; b] => firstn 1 (to_base 256 5 (from_base 32 [a; b; 0; 0; 0; 0; 0; 0]))
  | _ => []
  end.
Fixpoint bytes16 (ds : list Z) : list Z :=
  match ds with a :: b :: r => from_base 16 [a; b] :: bytes16 r | _ => [] end.
(** what strict decoding requires: no noise but whitespace, and complete groups unless padded *)
Definition no_noise (val : Z -> option Z) (whitespace : Z -> bool) (s : list Z) : Prop :=
  forall c, In c s -> val c = None -> whitespace c = true.
Definition well_formed (group : nat) (val : Z -> option Z) (whitespace : Z -> bool) (s : list Z) : Prop :=
  no_noise val whitespace (before_pad s) /\
  (In pad s \/ (List.length (values val s) mod group = 0)%nat).
(** No noise where all but one digit of a group of eight have been read. *)
Definition no_noise_before_last (val : Z -> option Z) (s : list Z) : Prop :=
  forall a c b, s = a ++ c :: b -> ~ In pad (a ++ [c]) -> val c = None -> (List.length (values val a) mod 8 <> 7)%nat.
(** A digit that can replace + or /: a visible ASCII character that is not a letter, number or pad. *)
Definition usable_digit (d : Z) : Prop := 32 < d < 128 /\ ~ In d alnum64 /\ d <> pad.
(** The decoder for digits d0 and d1 also accepts + and / with their usual values. *)
Definition custom_value (d0 d1 c : Z) : option Z := if c =? d1 then Some 63 else if c =? d0 then Some 62 else value alphabet64 c.
(** hexadecimal digits in either case *)
Definition value16lax (c : Z) : option Z := match value alphabet16 c with Some v => Some v | None => value alphabet16lc c end.
