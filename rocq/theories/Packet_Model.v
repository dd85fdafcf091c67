(* Model of repl/packet.c.  MAX is PACKET_MAX_PL_LEN (packet.h 27-29, a build
   setting).  The callbacks are represented by the list of payloads handed to
   process_func and by the bytes handed to send_func; both are taken to be set. *)
From Verif Require Import Base Crc_Model.
Local Open Scope Z_scope.

Section Packet.
Variable MAX : Z.

(* packet.h 31 *)
Definition BUFLEN : Z := MAX + 8.

(* packet.h 34-42, the receiving half *)
Record pstate := mkP { rx_read : Z; rx_write : Z; bytes_left : Z; rx_buffer : list Z }.

(* packet.c 28-33 packet_init *)
Definition packet_init : pstate := mkP 0 0 0 (repeat 0 (Z.to_nat BUFLEN)).
(* packet.c 35-39 packet_reset *)
Definition packet_reset (s : pstate) : pstate := mkP 0 0 0 (rx_buffer s).

(* packet.c 41-73 packet_send_packet: the bytes given to send_func, [] when
   nothing is sent.  tx_buffer holds BUFLEN bytes. *)
Definition packet_send (data : list Z) : res (list Z) :=
  let len := Z.of_nat (length data) in
  if (len =? 0) || (MAX <? len) then Ok []
  else
    let head :=
      if len <=? 255 then [2; len mod 256]
      else if len <=? 65535 then [3; Z.shiftr len 8 mod 256; Z.land len 255]
      else [4; Z.shiftr len 16 mod 256; Z.land (Z.shiftr len 8) 255; Z.land len 255] in
    let crc := crc16 data in
    let tx := head ++ data ++ [Z.shiftr crc 8 mod 256; Z.land crc 255; 3] in
    if Z.of_nat (length tx) <=? BUFLEN then Ok tx else UB.

(* len bytes from buffer + off *)
Definition slice (buffer : list Z) (off len : Z) : res (list Z) :=
  if off + len <=? Z.of_nat (length buffer) then Ok (firstn (Z.to_nat len) (skipn (Z.to_nat off) buffer)) else UB.

(* packet.c 155-246 try_decode_packet.  [buffer] is the array from the pointer
   on; the result is the return value, *bytes_left, and the payload delivered. *)
Definition try_decode (buffer : list Z) (in_len : Z) : res (Z * Z * list (list Z)) :=
  if in_len =? 0 then Ok (-2, 1, [])
  else
    let! b0 := rd buffer 0 in
    let is8 := b0 =? 2 in
    let is16 := (255 <? MAX) && (b0 =? 3) in
    let is24 := (65535 <? MAX) && (b0 =? 4) in
    let data_start := b0 in
    if negb is8 && negb is16 && negb is24 then Ok (-1, 0, [])
    else if in_len <? data_start then Ok (-2, data_start - in_len, [])
    else
      (* the length, or None for "return -1" *)
      let! len :=
        (if is8 then
           let! b1 := rd buffer 1 in Ok (if b1 <? 1 then None else Some b1)
         else if is16 then
           let! b1 := rd buffer 1 in let! b2 := rd buffer 2 in
           let len := Z.lor (Z.shiftl b1 8) b2 in Ok (if len <? 255 then None else Some len)
         else
           let! b1 := rd buffer 1 in let! b2 := rd buffer 2 in let! b3 := rd buffer 3 in
           let len := Z.lor (Z.lor (Z.shiftl b1 16) (Z.shiftl b2 8)) b3 in Ok (if len <? 65535 then None else Some len)) in
      match len with
      | None => Ok (-1, 0, [])
      | Some len =>
        if MAX <? len then Ok (-1, 0, [])
        else if in_len <? len + data_start + 3 then Ok (-2, (len + data_start + 3) - in_len, [])
        else
          let! stop := rd buffer (data_start + len + 2) in
          if negb (stop =? 3) then Ok (-1, 0, [])
          else
            let! payload := slice buffer data_start len in
            let! c1 := rd buffer (data_start + len) in
            let! c2 := rd buffer (data_start + len + 1) in
            if crc16 payload =? wrap 16 (Z.lor (Z.shiftl c1 8) c2)
            then Ok (len + data_start + 3, 0, [payload])
            else Ok (-1, 0, [])
      end.

(* packet.c 110-129: the for (;;) loop; data_len is a local variable *)
Fixpoint decode_loop (fuel : nat) (s : pstate) (data_len : Z) (out : list (list Z)) : res (pstate * Z * list (list Z)) :=
  match fuel with
  | O => Fuel
  | S k =>
    let! r := try_decode (skipn (Z.to_nat (rx_read s)) (rx_buffer s)) data_len in
    let '(res, bl, p) := r in
    let s1 := mkP (rx_read s) (rx_write s) bl (rx_buffer s) in
    if res =? -2 then Ok (s1, data_len, out ++ p)
    else if 0 <? res then decode_loop k (mkP (rx_read s + res) (rx_write s) bl (rx_buffer s)) (wrap 32 (data_len - res)) (out ++ p)
    else decode_loop k (mkP (rx_read s + 1) (rx_write s) bl (rx_buffer s)) (wrap 32 (data_len - 1)) (out ++ p)
  end.

(* packet.c 75-132 packet_process_byte *)
Definition process_byte (s : pstate) (rx_data : Z) : res (pstate * list (list Z)) :=
  let data_len := wrap 32 (rx_write s - rx_read s) in
  if BUFLEN <=? data_len then
    let! b := wr (rx_buffer s) 0 rx_data in Ok (mkP 0 1 0 b, [])
  else
    let! s1 :=
      (if BUFLEN <=? rx_write s then
         let! m := slice (rx_buffer s) (rx_read s) data_len in
         Ok (mkP 0 data_len (bytes_left s) (m ++ skipn (Z.to_nat data_len) (rx_buffer s)))
       else Ok s) in
    let! b := wr (rx_buffer s1) (rx_write s1) rx_data in
    let s2 := mkP (rx_read s1) (rx_write s1 + 1) (bytes_left s1) b in
    let data_len := data_len + 1 in
    if 1 <? bytes_left s2 then Ok (mkP (rx_read s2) (rx_write s2) (bytes_left s2 - 1) b, [])
    else
      let! r := decode_loop (S (Z.to_nat data_len)) s2 data_len [] in
      let '(s3, data_len, out) := r in
      if data_len =? 0 then Ok (mkP 0 0 (bytes_left s3) (rx_buffer s3), out)
      else Ok (s3, out).

(* the receiver given a stream of bytes, however chunked by the caller *)
Fixpoint process (s : pstate) (bs : list Z) : res (pstate * list (list Z)) :=
  match bs with
  | [] => Ok (s, [])
  | b :: t =>
    let! r := process_byte s b in
    let! q := process (fst r) t in
    Ok (fst q, snd r ++ snd q)
  end.

End Packet.
