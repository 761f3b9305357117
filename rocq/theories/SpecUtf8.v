(** Specification of UTF-8: the decoder of RFC 3629 / the Unicode standard (table 3-7), written
    from the standard and independent of the encoder in [Base]: it rejects overlong forms,
    surrogates and values above 10FFFF. *)
From Verif Require Import Base.

Definition in_rng (lo hi b : N) : bool := ((lo <=? b) && (b <=? hi))%N.

Fixpoint utf8_decode (bs : bytes) : option str :=
  match bs with
  | [] => Some []
  | b0 :: r0 =>
      if in_rng 0x00 0x7F b0 then option_map (cons b0) (utf8_decode r0)
      else
        match r0 with
        | b1 :: r1 =>
            if in_rng 0xC2 0xDF b0 && in_rng 0x80 0xBF b1
            then option_map (cons ((b0 - 0xC0) * 0x40 + (b1 - 0x80))%N) (utf8_decode r1)
            else
              match r1 with
              | b2 :: r2 =>
                  if (in_rng 0xE0 0xE0 b0 && in_rng 0xA0 0xBF b1
                      || in_rng 0xE1 0xEC b0 && in_rng 0x80 0xBF b1
                      || in_rng 0xED 0xED b0 && in_rng 0x80 0x9F b1
                      || in_rng 0xEE 0xEF b0 && in_rng 0x80 0xBF b1) && in_rng 0x80 0xBF b2
                  then option_map
                         (cons ((b0 - 0xE0) * 0x1000 + (b1 - 0x80) * 0x40 + (b2 - 0x80))%N)
                         (utf8_decode r2)
                  else
                    match r2 with
                    | b3 :: r3 =>
                        if (in_rng 0xF0 0xF0 b0 && in_rng 0x90 0xBF b1
                            || in_rng 0xF1 0xF3 b0 && in_rng 0x80 0xBF b1
                            || in_rng 0xF4 0xF4 b0 && in_rng 0x80 0x8F b1)
                           && in_rng 0x80 0xBF b2 && in_rng 0x80 0xBF b3
                        then option_map
                               (cons ((b0 - 0xF0) * 0x40000 + (b1 - 0x80) * 0x1000
                                      + (b2 - 0x80) * 0x40 + (b3 - 0x80))%N)
                               (utf8_decode r3)
                        else None
                    | [] => None
                    end
              | [] => None
              end
        | [] => None
        end
  end.
