(** C36: an input port is a position in a sequence of bytes. *)
From Coq Require Import ZArith List Bool Lia.
From Verif Require Import Outcome Utf8Model Utf8Spec Utf8Proofs StringSpec PortModel PortSpec PortProofs PortProofs2 PortProofs3 PortProofs4.
Import ListNotations.
Local Open Scope Z_scope.
Ltac Zify.zify_post_hook ::= idtac.

(** For every content, every way the file hands out its bytes ([oracle], [ready]), every
    buffering mode and size, and every sequence of read-char, peek-char, read-byte,
    peek-byte, read-line, read-string, read-uvector, port-tell and port-seek: the answers
    are those of a plain position in the byte sequence, up to the first operation that is
    not [allowed].  With buffering mode :none the buffer must have room for 5 bytes. *)
Theorem input_port_position_partial : forall k all oracle ready ops, Forall is_byte all -> kind_ok k ->
  conforms all (exact_kind k) (is_file k) (mkS 0 0 false) ops (in_run (open_port k all oracle ready) ops).
Proof. intros. apply in_run_ok; auto. now apply open_inv. Qed.

(** ** The exceptions are needed: what the code does outside [allowed] *)
Definition one (n : nat) := 1%nat.
Definition yes (n : nat) := true.

(** A block read that wants more than what has been peeked at and is left loses it: the
    count returned is 1 + EOF = 0 (portapi.c:838-840). *)
Theorem peeked_block_refuted :
  in_run (open_port KStr [97] one yes) [PeekByte; ReadUvector 10; ReadByte] = [Ok (AByte 97); Ok (ABytes []); Ok AEof] /\
  in_run (open_port (KFile BFull 8) [97] one yes) [PeekChar; ReadUvector 10; ReadByte] = [Ok (AChar 97); Ok (ABytes []); Ok AEof] /\
  in_run (open_port KStr [97; 13; 98] one yes) [ReadLine; ReadUvector 10; ReadByte] = [Ok (ABytes [97]); Ok (ABytes []); Ok AEof] /\
  forall exact beyond s s', s_pos s = 0%nat -> ~ spec_step [97] exact beyond s (ReadUvector 10) (ABytes []) s'.
Proof.
  split; [reflexivity|]. split; [reflexivity|]. split; [reflexivity|]. intros exact beyond s s' Hs H. inversion H; subst.
  unfold rest in *. rewrite Hs in *. cbn [skipn length] in *. match goal with E : firstn ?k _ = [] |- _ => destruct k as [|k]; [lia|]; cbn in E; discriminate E end.
Qed.
(** After the end has been peeked at, a block read returns a byte that is not there. *)
Theorem peeked_eof_block_refuted :
  in_run (open_port KStr [] one yes) [PeekChar; ReadUvector 1] = [Ok AEof; Ok (ABytes [255])] /\
  forall exact beyond s s', ~ spec_step [] exact beyond s (ReadUvector 1) (ABytes [255]) s'.
Proof.
  split; [reflexivity|]. intros exact beyond s s' H. inversion H; subst. unfold rest in *. rewrite skipn_nil in *. cbn in *. lia.
Qed.
(** After the end has been peeked at, port-tell is one too low. *)
Theorem peeked_eof_tell_refuted :
  in_run (open_port KStr [97] one yes) [ReadByte; PeekChar; PortTell] = [Ok (AByte 97); Ok AEof; Ok (APos 0)] /\
  forall exact beyond s s', s_pos s = 1%nat -> ~ spec_step [97] exact beyond s PortTell (APos 0) s'.
Proof. split; [reflexivity|]. intros exact beyond s s' Hs H. inversion H; subst. rewrite Hs in *. discriminate. Qed.
(** A port-seek that fails drops what has been peeked at. *)
Theorem peeked_failed_seek_refuted :
  in_run (open_port KStr [97; 98] one yes) [PeekChar; PortSeek (-5) SeekCur; ReadChar] = [Ok (AChar 97); Ok AFalse; Ok (AChar 98)] /\
  forall exact beyond s s', s_pos s = 0%nat -> ~ spec_step [97; 98] exact beyond s ReadChar (AChar 98) s'.
Proof.
  split; [reflexivity|]. intros exact beyond s s' Hs H. inversion H; subst. match goal with X : char_bytes _ _, Y : rest _ _ = _ |- _ => rename X into Hc; rename Y into Hr end. unfold rest in *. rewrite Hs in *. cbn [skipn] in *.
  apply char_bytes_put in Hc as (_ & ->). vm_compute in Hr. discriminate.
Qed.
(** Where the bytes are not a character, what read-char consumes depends on whether the
    character before was peeked at: with the peek, one byte (130) is never read. *)
Theorem peeked_malformed_refuted :
  in_run (open_port (KFile BFull 8) [227; 129; 130; 98] one yes) [ReadByte; ReadChar; ReadByte; ReadByte] = [Ok (AByte 227); Ok (AChar 129); Ok (AByte 130); Ok (AByte 98)] /\
  in_run (open_port (KFile BFull 8) [227; 129; 130; 98] one yes) [PeekChar; ReadByte; ReadChar; ReadByte; ReadByte] = [Ok (AChar 12354); Ok (AByte 227); Ok (AChar 129); Ok (AByte 98); Ok AEof].
Proof. split; reflexivity. Qed.

(** ** Examples *)
(** a session on "aé\r\nb\rc" read byte by byte *)
Definition ex_bytes := [97; 195; 169; 13; 10; 98; 13; 99].
Definition ex_ops := [PeekChar; ReadByte; PeekByte; PeekChar; PortTell; ReadLine; ReadLine; PeekChar; ReadString 5; ReadByte; PortSeek (-2) SeekEnd; ReadUvector 2].
Example ex_session : in_run (open_port (KFile BNone 5) ex_bytes one yes) ex_ops =
  [Ok (AChar 97); Ok (AByte 97); Ok (AByte 195); Ok (AChar 233); Ok (APos 1); Ok (ABytes [195; 169]); Ok (ABytes [98]); Ok (AChar 99); Ok (AChars [99]); Ok AEof; Ok (APos 6); Ok (ABytes [13; 99])].
Proof. reflexivity. Qed.
Example ex_kind : kind_ok (KFile BNone 5) /\ Forall is_byte ex_bytes.
Proof. split; [cbn; lia|]. repeat constructor; unfold is_byte; lia. Qed.
(** the states of its first operations, all of them allowed *)
Example ex_allowed :
  allowed ex_bytes true (mkS 0 0 false) PeekChar /\ spec_step ex_bytes true true (mkS 0 0 false) PeekChar (AChar 97) (mkS 0 1 false) /\
  allowed ex_bytes true (mkS 0 1 false) ReadByte /\ spec_step ex_bytes true true (mkS 0 1 false) ReadByte (AByte 97) (mkS 1 0 false) /\
  allowed ex_bytes true (mkS 1 0 false) PeekByte /\ spec_step ex_bytes true true (mkS 1 0 false) PeekByte (AByte 195) (mkS 1 1 false) /\
  allowed ex_bytes true (mkS 1 1 false) PeekChar /\ spec_step ex_bytes true true (mkS 1 1 false) PeekChar (AChar 233) (mkS 1 2 false) /\
  allowed ex_bytes true (mkS 1 2 false) ReadLine /\ spec_step ex_bytes true true (mkS 1 2 false) ReadLine (ABytes [195; 169]) (mkS 5 0 false) /\
  allowed ex_bytes true (mkS 5 0 false) ReadLine /\ spec_step ex_bytes true true (mkS 5 0 false) ReadLine (ABytes [98]) (mkS 7 1 false) /\
  allowed ex_bytes true (mkS 7 1 false) (ReadString 5) /\ spec_step ex_bytes true true (mkS 7 1 false) (ReadString 5) (AChars [99]) (mkS 8 0 false) /\
  allowed ex_bytes true (mkS 7 0 false) (ReadUvector 5) /\ spec_step ex_bytes true true (mkS 7 0 false) (ReadUvector 5) (ABytes [99]) (mkS 8 0 false).
Proof.
  assert (V97 : valid_char 97) by (repeat split; lia). assert (V99 : valid_char 99) by (repeat split; lia). assert (V233 : valid_char 233) by (repeat split; lia).
  assert (A97 : char_bytes 97 [97]) by (split; [auto|exact (putc_encodes 97 V97)]). assert (A99 : char_bytes 99 [99]) by (split; [auto|exact (putc_encodes 99 V99)]).
  assert (A233 : char_bytes 233 [195; 169]) by (split; [auto|exact (putc_encodes 233 V233)]).
  assert (E99 : encodes_all [99] [99]) by (exact (enc_cons 99 [] [99] [] V99 (proj2 A99) enc_nil)).
  split. { right. exists 97, [97], (tl ex_bytes). auto. }
  split. { exact (S_peek_char ex_bytes true true (mkS 0 0 false) 97 [97] (tl ex_bytes) A97 eq_refl). }
  split; [exact Logic.I|]. split. { exact (S_read_byte ex_bytes true true (mkS 0 1 false) 97 (tl ex_bytes) eq_refl). }
  split; [exact Logic.I|]. split. { exact (S_peek_byte ex_bytes true true (mkS 1 0 false) 195 (skipn 2 ex_bytes) eq_refl). }
  split. { right. exists 233, [195; 169], (skipn 3 ex_bytes). auto. }
  split. { exact (S_peek_char ex_bytes true true (mkS 1 1 false) 233 [195; 169] (skipn 3 ex_bytes) A233 eq_refl). }
  split; [exact Logic.I|]. split. { refine (S_read_line ex_bytes true true (mkS 1 2 false) [195; 169] [13; 10] (skipn 5 ex_bytes) eq_refl _ _); [repeat constructor; lia|unfold eol_ok; auto]. }
  split; [exact Logic.I|]. split. { refine (S_read_line ex_bytes true true (mkS 5 0 false) [98] [13] [99] eq_refl _ _); [repeat constructor; lia|]. right; right; right. split; auto. intros r' E. discriminate. }
  split. { exists [99], [99], []. split; [exact E99|]. split; [reflexivity|]. right. cbn. split; [lia|auto]. }
  split. { refine (S_read_string ex_bytes true true (mkS 7 1 false) 5 [99] [99] [] E99 eq_refl _ _); [discriminate|right; cbn; split; [lia|auto]]. }
  split. { cbn. split; [lia|]. split; auto. }
  refine (S_read_uvector ex_bytes true true (mkS 7 0 false) 5 1 _ _ _ _); cbn; auto; lia.
Qed.

Print Assumptions input_port_position_partial.
Print Assumptions peeked_block_refuted.
Print Assumptions peeked_eof_block_refuted.
Print Assumptions peeked_eof_tell_refuted.
Print Assumptions peeked_failed_seek_refuted.
Print Assumptions peeked_malformed_refuted.
