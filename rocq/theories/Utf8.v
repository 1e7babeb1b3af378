(** UTF-8: the crate's own encoder, and [str::from_utf8] by its contract. *)
From Verif Require Import Base.

(** src/lib.rs 672-690 [encode_utf8]; [x as u8] keeps the low 8 bits. *)
Definition u8 (x : N) : N := x mod 256.
(** src/lib.rs 672-690 [encode_utf8] *)
Definition encode_utf8 (u : N) : list N :=
  if u <=? 0x7F then [u8 u]
  else if u <=? 0x7FF then
    [u8 (N.lor 0xC0 (N.shiftr u 6)); u8 (N.lor 0x80 (N.land u 0x3F))]
  else if u <=? 0xFFFF then
    [u8 (N.lor 0xE0 (N.shiftr u 12)); u8 (N.lor 0x80 (N.land (N.shiftr u 6) 0x3F));
     u8 (N.lor 0x80 (N.land u 0x3F))]
  else
    [u8 (N.lor 0xF0 (N.shiftr u 18)); u8 (N.lor 0x80 (N.land (N.shiftr u 12) 0x3F));
     u8 (N.lor 0x80 (N.land (N.shiftr u 6) 0x3F)); u8 (N.lor 0x80 (N.land u 0x3F))].

(** [str::from_utf8] (used at src/lib.rs 375): accepts exactly the well-formed byte sequences of the
    Unicode standard, table 3-7, and decodes them.  Standard library; contract only. *)
Definition cont (b : N) : bool := (0x80 <=? b) && (b <=? 0xBF).
(** std: [str::from_utf8], used at src/lib.rs 375 *)
Fixpoint from_utf8 (bs : list N) : option str :=
  match bs with
  | [] => Some []
  | b0 :: r0 =>
      if b0 <=? 0x7F then option_map (cons b0) (from_utf8 r0)
      else match r0 with
      | [] => None
      | b1 :: r1 =>
          if (0xC2 <=? b0) && (b0 <=? 0xDF) then
            if cont b1 then option_map (cons ((b0 - 0xC0) * 64 + (b1 - 0x80))) (from_utf8 r1) else None
          else match r1 with
          | [] => None
          | b2 :: r2 =>
              if (0xE0 <=? b0) && (b0 <=? 0xEF) then
                if (cont b1 && cont b2) && ((negb (b0 =? 0xE0) || (0xA0 <=? b1)) && (negb (b0 =? 0xED) || (b1 <=? 0x9F)))
                then option_map (cons ((b0 - 0xE0) * 4096 + (b1 - 0x80) * 64 + (b2 - 0x80))) (from_utf8 r2)
                else None
              else match r2 with
              | [] => None
              | b3 :: r3 =>
                  if (0xF0 <=? b0) && (b0 <=? 0xF4) then
                    if (cont b1 && cont b2 && cont b3) && ((negb (b0 =? 0xF0) || (0x90 <=? b1)) && (negb (b0 =? 0xF4) || (b1 <=? 0x8F)))
                    then option_map (cons ((b0 - 0xF0) * 262144 + (b1 - 0x80) * 4096 + (b2 - 0x80) * 64 + (b3 - 0x80)))
                                    (from_utf8 r3)
                    else None
                  else None
              end
          end
      end
  end.
