(** * The instructions of xten0/src/asm/inst.rs

    One entry for each implementation of [WriteInst], in the order of the file, with its lines.  Each
    entry is the implementation transcribed (the types of the operands, the bindings of [modrm] and
    [rio], and the statements), beside the encoding that xtencg/supported-instructions.md lists for the
    instruction, with the line of that file. *)
From Coq Require Import NArith.
From Verif.Base Require Import Base.
From Verif.Asm Require Import Model Manual.

Definition table0 : list (inst * list token) := [
  (* 3430-3441; 4 *) (Inst "adcb" [K8; K8] (Some (Op 0, 1)) None [PModRex false; PByte 18; PModRM; PSib; PDisp],
    [TByte 18; TSlash 0 1]);
  (* 3444-3455; 4 *) (Inst "adcb" [K8; KMem] (Some (Op 0, 1)) None [PModRex false; PByte 18; PModRM; PSib; PDisp],
    [TByte 18; TSlash 0 1]);
  (* 3458-3469; 5 *) (Inst "adcb" [KMem; K8] (Some (Op 1, 0)) None [PModRex false; PByte 16; PModRM; PSib; PDisp],
    [TByte 16; TSlash 1 0]);
  (* 3472-3484; 6 *) (Inst "adcb" [K8; KI8] (Some (Digit 2, 0)) None [PModRex false; PByte 128; PModRM; PSib; PDisp; PImm 1],
    [TByte 128; TDigit 2 0; TImm 1 1]);
  (* 3487-3499; 6 *) (Inst "adcb" [KMem; KI8] (Some (Digit 2, 0)) None [PModRex false; PByte 128; PModRM; PSib; PDisp; PImm 1],
    [TByte 128; TDigit 2 0; TImm 1 1]);
  (* 3502-3509; 7 *) (Inst "adcb" [KFixed FAl; KI8] None None [PByte 20; PImm 1],
    [TByte 20; TImm 1 1]);
  (* 3514-3525; 12 *) (Inst "adcl" [K32; K32] (Some (Op 0, 1)) None [PModRex false; PByte 19; PModRM; PSib; PDisp],
    [TByte 19; TSlash 0 1]);
  (* 3528-3539; 12 *) (Inst "adcl" [K32; KMem] (Some (Op 0, 1)) None [PModRex false; PByte 19; PModRM; PSib; PDisp],
    [TByte 19; TSlash 0 1]);
  (* 3542-3553; 13 *) (Inst "adcl" [KMem; K32] (Some (Op 1, 0)) None [PModRex false; PByte 17; PModRM; PSib; PDisp],
    [TByte 17; TSlash 1 0]);
  (* 3556-3568; 14 *) (Inst "adcl" [K32; KI8] (Some (Digit 2, 0)) None [PModRex false; PByte 131; PModRM; PSib; PDisp; PImm 1],
    [TByte 131; TDigit 2 0; TImm 1 1]);
  (* 3571-3583; 14 *) (Inst "adcl" [KMem; KI8] (Some (Digit 2, 0)) None [PModRex false; PByte 131; PModRM; PSib; PDisp; PImm 1],
    [TByte 131; TDigit 2 0; TImm 1 1]);
  (* 3586-3598; 15 *) (Inst "adcl" [K32; KI32] (Some (Digit 2, 0)) None [PModRex false; PByte 129; PModRM; PSib; PDisp; PImm 1],
    [TByte 129; TDigit 2 0; TImm 4 1]);
  (* 3601-3613; 15 *) (Inst "adcl" [KMem; KI32] (Some (Digit 2, 0)) None [PModRex false; PByte 129; PModRM; PSib; PDisp; PImm 1],
    [TByte 129; TDigit 2 0; TImm 4 1]);
  (* 3616-3623; 16 *) (Inst "adcl" [KFixed FEax; KI32] None None [PByte 21; PImm 1],
    [TByte 21; TImm 4 1]);
  (* 3628-3639; 21 *) (Inst "adcq" [K64; K64] (Some (Op 0, 1)) None [PModRex true; PByte 19; PModRM; PSib; PDisp],
    [TRexW; TByte 19; TSlash 0 1]);
  (* 3642-3653; 21 *) (Inst "adcq" [K64; KMem] (Some (Op 0, 1)) None [PModRex true; PByte 19; PModRM; PSib; PDisp],
    [TRexW; TByte 19; TSlash 0 1]);
  (* 3656-3667; 22 *) (Inst "adcq" [KMem; K64] (Some (Op 1, 0)) None [PModRex true; PByte 17; PModRM; PSib; PDisp],
    [TRexW; TByte 17; TSlash 1 0]);
  (* 3670-3682; 23 *) (Inst "adcq" [K64; KI8] (Some (Digit 2, 0)) None [PModRex true; PByte 131; PModRM; PSib; PDisp; PImm 1],
    [TRexW; TByte 131; TDigit 2 0; TImm 1 1]);
  (* 3685-3697; 23 *) (Inst "adcq" [KMem; KI8] (Some (Digit 2, 0)) None [PModRex true; PByte 131; PModRM; PSib; PDisp; PImm 1],
    [TRexW; TByte 131; TDigit 2 0; TImm 1 1]);
  (* 3700-3712; 24 *) (Inst "adcq" [K64; KI32] (Some (Digit 2, 0)) None [PModRex true; PByte 129; PModRM; PSib; PDisp; PImm 1],
    [TRexW; TByte 129; TDigit 2 0; TImm 4 1]);
  (* 3715-3727; 24 *) (Inst "adcq" [KMem; KI32] (Some (Digit 2, 0)) None [PModRex true; PByte 129; PModRM; PSib; PDisp; PImm 1],
    [TRexW; TByte 129; TDigit 2 0; TImm 4 1]);
  (* 3730-3738; 25 *) (Inst "adcq" [KFixed FRax; KI32] None None [PRex true; PByte 21; PImm 1],
    [TRexW; TByte 21; TImm 4 1]);
  (* 3743-3755; 30 *) (Inst "adcw" [K16; K16] (Some (Op 0, 1)) None [PByte 102; PModRex false; PByte 19; PModRM; PSib; PDisp],
    [TByte 102; TByte 19; TSlash 0 1]);
  (* 3758-3770; 30 *) (Inst "adcw" [K16; KMem] (Some (Op 0, 1)) None [PByte 102; PModRex false; PByte 19; PModRM; PSib; PDisp],
    [TByte 102; TByte 19; TSlash 0 1]);
  (* 3773-3785; 31 *) (Inst "adcw" [KMem; K16] (Some (Op 1, 0)) None [PByte 102; PModRex false; PByte 17; PModRM; PSib; PDisp],
    [TByte 102; TByte 17; TSlash 1 0]);
  (* 3788-3801; 32 *) (Inst "adcw" [K16; KI8] (Some (Digit 2, 0)) None [PByte 102; PModRex false; PByte 131; PModRM; PSib; PDisp; PImm 1],
    [TByte 102; TByte 131; TDigit 2 0; TImm 1 1]);
  (* 3804-3817; 32 *) (Inst "adcw" [KMem; KI8] (Some (Digit 2, 0)) None [PByte 102; PModRex false; PByte 131; PModRM; PSib; PDisp; PImm 1],
    [TByte 102; TByte 131; TDigit 2 0; TImm 1 1]);
  (* 3820-3833; 33 *) (Inst "adcw" [K16; KI16] (Some (Digit 2, 0)) None [PByte 102; PModRex false; PByte 129; PModRM; PSib; PDisp; PImm 1],
    [TByte 102; TByte 129; TDigit 2 0; TImm 2 1]);
  (* 3836-3849; 33 *) (Inst "adcw" [KMem; KI16] (Some (Digit 2, 0)) None [PByte 102; PModRex false; PByte 129; PModRM; PSib; PDisp; PImm 1],
    [TByte 102; TByte 129; TDigit 2 0; TImm 2 1]);
  (* 3852-3860; 34 *) (Inst "adcw" [KFixed FAx; KI16] None None [PByte 102; PByte 21; PImm 1],
    [TByte 102; TByte 21; TImm 2 1]);
  (* 3865-3876; 39 *) (Inst "addb" [K8; K8] (Some (Op 0, 1)) None [PModRex false; PByte 2; PModRM; PSib; PDisp],
    [TByte 2; TSlash 0 1]);
  (* 3879-3890; 39 *) (Inst "addb" [K8; KMem] (Some (Op 0, 1)) None [PModRex false; PByte 2; PModRM; PSib; PDisp],
    [TByte 2; TSlash 0 1]);
  (* 3893-3904; 40 *) (Inst "addb" [KMem; K8] (Some (Op 1, 0)) None [PModRex false; PByte 0; PModRM; PSib; PDisp],
    [TByte 0; TSlash 1 0]);
  (* 3907-3919; 41 *) (Inst "addb" [K8; KI8] (Some (Digit 0, 0)) None [PModRex false; PByte 128; PModRM; PSib; PDisp; PImm 1],
    [TByte 128; TDigit 0 0; TImm 1 1]);
  (* 3922-3934; 41 *) (Inst "addb" [KMem; KI8] (Some (Digit 0, 0)) None [PModRex false; PByte 128; PModRM; PSib; PDisp; PImm 1],
    [TByte 128; TDigit 0 0; TImm 1 1]);
  (* 3937-3944; 42 *) (Inst "addb" [KFixed FAl; KI8] None None [PByte 4; PImm 1],
    [TByte 4; TImm 1 1]);
  (* 3949-3960; 47 *) (Inst "addl" [K32; K32] (Some (Op 0, 1)) None [PModRex false; PByte 3; PModRM; PSib; PDisp],
    [TByte 3; TSlash 0 1]);
  (* 3963-3974; 47 *) (Inst "addl" [K32; KMem] (Some (Op 0, 1)) None [PModRex false; PByte 3; PModRM; PSib; PDisp],
    [TByte 3; TSlash 0 1]);
  (* 3977-3988; 48 *) (Inst "addl" [KMem; K32] (Some (Op 1, 0)) None [PModRex false; PByte 1; PModRM; PSib; PDisp],
    [TByte 1; TSlash 1 0]);
  (* 3991-4003; 49 *) (Inst "addl" [K32; KI8] (Some (Digit 0, 0)) None [PModRex false; PByte 131; PModRM; PSib; PDisp; PImm 1],
    [TByte 131; TDigit 0 0; TImm 1 1]);
  (* 4006-4018; 49 *) (Inst "addl" [KMem; KI8] (Some (Digit 0, 0)) None [PModRex false; PByte 131; PModRM; PSib; PDisp; PImm 1],
    [TByte 131; TDigit 0 0; TImm 1 1]);
  (* 4021-4033; 50 *) (Inst "addl" [K32; KI32] (Some (Digit 0, 0)) None [PModRex false; PByte 129; PModRM; PSib; PDisp; PImm 1],
    [TByte 129; TDigit 0 0; TImm 4 1]);
  (* 4036-4048; 50 *) (Inst "addl" [KMem; KI32] (Some (Digit 0, 0)) None [PModRex false; PByte 129; PModRM; PSib; PDisp; PImm 1],
    [TByte 129; TDigit 0 0; TImm 4 1]);
  (* 4051-4058; 51 *) (Inst "addl" [KFixed FEax; KI32] None None [PByte 5; PImm 1],
    [TByte 5; TImm 4 1]);
  (* 4063-4076; 56 *) (Inst "addpd" [KX; KX] (Some (Op 0, 1)) None [PByte 102; PModRex false; PByte 15; PByte 88; PModRM; PSib; PDisp],
    [TByte 102; TByte 15; TByte 88; TSlash 0 1]);
  (* 4079-4092; 56 *) (Inst "addpd" [KX; KMem] (Some (Op 0, 1)) None [PByte 102; PModRex false; PByte 15; PByte 88; PModRM; PSib; PDisp],
    [TByte 102; TByte 15; TByte 88; TSlash 0 1]);
  (* 4097-4109; 61 *) (Inst "addps" [KX; KX] (Some (Op 0, 1)) None [PModRex false; PByte 15; PByte 88; PModRM; PSib; PDisp],
    [TByte 15; TByte 88; TSlash 0 1]);
  (* 4112-4124; 61 *) (Inst "addps" [KX; KMem] (Some (Op 0, 1)) None [PModRex false; PByte 15; PByte 88; PModRM; PSib; PDisp],
    [TByte 15; TByte 88; TSlash 0 1]);
  (* 4129-4140; 66 *) (Inst "addq" [K64; K64] (Some (Op 0, 1)) None [PModRex true; PByte 3; PModRM; PSib; PDisp],
    [TRexW; TByte 3; TSlash 0 1]);
  (* 4143-4154; 66 *) (Inst "addq" [K64; KMem] (Some (Op 0, 1)) None [PModRex true; PByte 3; PModRM; PSib; PDisp],
    [TRexW; TByte 3; TSlash 0 1]);
  (* 4157-4168; 67 *) (Inst "addq" [KMem; K64] (Some (Op 1, 0)) None [PModRex true; PByte 1; PModRM; PSib; PDisp],
    [TRexW; TByte 1; TSlash 1 0]);
  (* 4171-4183; 68 *) (Inst "addq" [K64; KI8] (Some (Digit 0, 0)) None [PModRex true; PByte 131; PModRM; PSib; PDisp; PImm 1],
    [TRexW; TByte 131; TDigit 0 0; TImm 1 1]);
  (* 4186-4198; 68 *) (Inst "addq" [KMem; KI8] (Some (Digit 0, 0)) None [PModRex true; PByte 131; PModRM; PSib; PDisp; PImm 1],
    [TRexW; TByte 131; TDigit 0 0; TImm 1 1]);
  (* 4201-4213; 69 *) (Inst "addq" [K64; KI32] (Some (Digit 0, 0)) None [PModRex true; PByte 129; PModRM; PSib; PDisp; PImm 1],
    [TRexW; TByte 129; TDigit 0 0; TImm 4 1]);
  (* 4216-4228; 69 *) (Inst "addq" [KMem; KI32] (Some (Digit 0, 0)) None [PModRex true; PByte 129; PModRM; PSib; PDisp; PImm 1],
    [TRexW; TByte 129; TDigit 0 0; TImm 4 1]);
  (* 4231-4239; 70 *) (Inst "addq" [KFixed FRax; KI32] None None [PRex true; PByte 5; PImm 1],
    [TRexW; TByte 5; TImm 4 1]);
  (* 4244-4257; 75 *) (Inst "addsd" [KX; KX] (Some (Op 0, 1)) None [PByte 242; PModRex false; PByte 15; PByte 88; PModRM; PSib; PDisp],
    [TByte 242; TByte 15; TByte 88; TSlash 0 1]);
  (* 4260-4273; 75 *) (Inst "addsd" [KX; KMem] (Some (Op 0, 1)) None [PByte 242; PModRex false; PByte 15; PByte 88; PModRM; PSib; PDisp],
    [TByte 242; TByte 15; TByte 88; TSlash 0 1]);
  (* 4278-4291; 80 *) (Inst "addss" [KX; KX] (Some (Op 0, 1)) None [PByte 243; PModRex false; PByte 15; PByte 88; PModRM; PSib; PDisp],
    [TByte 243; TByte 15; TByte 88; TSlash 0 1]);
  (* 4294-4307; 80 *) (Inst "addss" [KX; KMem] (Some (Op 0, 1)) None [PByte 243; PModRex false; PByte 15; PByte 88; PModRM; PSib; PDisp],
    [TByte 243; TByte 15; TByte 88; TSlash 0 1]);
  (* 4312-4324; 85 *) (Inst "addw" [K16; K16] (Some (Op 0, 1)) None [PByte 102; PModRex false; PByte 3; PModRM; PSib; PDisp],
    [TByte 102; TByte 3; TSlash 0 1]);
  (* 4327-4339; 85 *) (Inst "addw" [K16; KMem] (Some (Op 0, 1)) None [PByte 102; PModRex false; PByte 3; PModRM; PSib; PDisp],
    [TByte 102; TByte 3; TSlash 0 1]);
  (* 4342-4354; 86 *) (Inst "addw" [KMem; K16] (Some (Op 1, 0)) None [PByte 102; PModRex false; PByte 1; PModRM; PSib; PDisp],
    [TByte 102; TByte 1; TSlash 1 0]);
  (* 4357-4370; 87 *) (Inst "addw" [K16; KI8] (Some (Digit 0, 0)) None [PByte 102; PModRex false; PByte 131; PModRM; PSib; PDisp; PImm 1],
    [TByte 102; TByte 131; TDigit 0 0; TImm 1 1]);
  (* 4373-4386; 87 *) (Inst "addw" [KMem; KI8] (Some (Digit 0, 0)) None [PByte 102; PModRex false; PByte 131; PModRM; PSib; PDisp; PImm 1],
    [TByte 102; TByte 131; TDigit 0 0; TImm 1 1]);
  (* 4389-4402; 88 *) (Inst "addw" [K16; KI16] (Some (Digit 0, 0)) None [PByte 102; PModRex false; PByte 129; PModRM; PSib; PDisp; PImm 1],
    [TByte 102; TByte 129; TDigit 0 0; TImm 2 1]);
  (* 4405-4418; 88 *) (Inst "addw" [KMem; KI16] (Some (Digit 0, 0)) None [PByte 102; PModRex false; PByte 129; PModRM; PSib; PDisp; PImm 1],
    [TByte 102; TByte 129; TDigit 0 0; TImm 2 1]);
  (* 4421-4429; 89 *) (Inst "addw" [KFixed FAx; KI16] None None [PByte 102; PByte 5; PImm 1],
    [TByte 102; TByte 5; TImm 2 1]);
  (* 4434-4445; 94 *) (Inst "andb" [K8; K8] (Some (Op 0, 1)) None [PModRex false; PByte 34; PModRM; PSib; PDisp],
    [TByte 34; TSlash 0 1]);
  (* 4448-4459; 94 *) (Inst "andb" [K8; KMem] (Some (Op 0, 1)) None [PModRex false; PByte 34; PModRM; PSib; PDisp],
    [TByte 34; TSlash 0 1]);
  (* 4462-4473; 95 *) (Inst "andb" [KMem; K8] (Some (Op 1, 0)) None [PModRex false; PByte 32; PModRM; PSib; PDisp],
    [TByte 32; TSlash 1 0]);
  (* 4476-4488; 96 *) (Inst "andb" [K8; KI8] (Some (Digit 4, 0)) None [PModRex false; PByte 128; PModRM; PSib; PDisp; PImm 1],
    [TByte 128; TDigit 4 0; TImm 1 1]);
  (* 4491-4503; 96 *) (Inst "andb" [KMem; KI8] (Some (Digit 4, 0)) None [PModRex false; PByte 128; PModRM; PSib; PDisp; PImm 1],
    [TByte 128; TDigit 4 0; TImm 1 1]);
  (* 4506-4513; 97 *) (Inst "andb" [KFixed FAl; KI8] None None [PByte 36; PImm 1],
    [TByte 36; TImm 1 1]);
  (* 4518-4529; 102 *) (Inst "andl" [K32; K32] (Some (Op 0, 1)) None [PModRex false; PByte 35; PModRM; PSib; PDisp],
    [TByte 35; TSlash 0 1]);
  (* 4532-4543; 102 *) (Inst "andl" [K32; KMem] (Some (Op 0, 1)) None [PModRex false; PByte 35; PModRM; PSib; PDisp],
    [TByte 35; TSlash 0 1]);
  (* 4546-4557; 103 *) (Inst "andl" [KMem; K32] (Some (Op 1, 0)) None [PModRex false; PByte 33; PModRM; PSib; PDisp],
    [TByte 33; TSlash 1 0]);
  (* 4560-4572; 104 *) (Inst "andl" [K32; KI8] (Some (Digit 4, 0)) None [PModRex false; PByte 131; PModRM; PSib; PDisp; PImm 1],
    [TByte 131; TDigit 4 0; TImm 1 1]);
  (* 4575-4587; 104 *) (Inst "andl" [KMem; KI8] (Some (Digit 4, 0)) None [PModRex false; PByte 131; PModRM; PSib; PDisp; PImm 1],
    [TByte 131; TDigit 4 0; TImm 1 1]);
  (* 4590-4602; 105 *) (Inst "andl" [K32; KI32] (Some (Digit 4, 0)) None [PModRex false; PByte 129; PModRM; PSib; PDisp; PImm 1],
    [TByte 129; TDigit 4 0; TImm 4 1]);
  (* 4605-4617; 105 *) (Inst "andl" [KMem; KI32] (Some (Digit 4, 0)) None [PModRex false; PByte 129; PModRM; PSib; PDisp; PImm 1],
    [TByte 129; TDigit 4 0; TImm 4 1]);
  (* 4620-4627; 106 *) (Inst "andl" [KFixed FEax; KI32] None None [PByte 37; PImm 1],
    [TByte 37; TImm 4 1]);
  (* 4632-4645; 111 *) (Inst "andnpd" [KX; KX] (Some (Op 0, 1)) None [PByte 102; PModRex false; PByte 15; PByte 85; PModRM; PSib; PDisp],
    [TByte 102; TByte 15; TByte 85; TSlash 0 1]);
  (* 4648-4661; 111 *) (Inst "andnpd" [KX; KMem] (Some (Op 0, 1)) None [PByte 102; PModRex false; PByte 15; PByte 85; PModRM; PSib; PDisp],
    [TByte 102; TByte 15; TByte 85; TSlash 0 1]);
  (* 4666-4678; 116 *) (Inst "andnps" [KX; KX] (Some (Op 0, 1)) None [PModRex false; PByte 15; PByte 85; PModRM; PSib; PDisp],
    [TByte 15; TByte 85; TSlash 0 1]);
  (* 4681-4693; 116 *) (Inst "andnps" [KX; KMem] (Some (Op 0, 1)) None [PModRex false; PByte 15; PByte 85; PModRM; PSib; PDisp],
    [TByte 15; TByte 85; TSlash 0 1]);
  (* 4698-4711; 121 *) (Inst "andpd" [KX; KX] (Some (Op 0, 1)) None [PByte 102; PModRex false; PByte 15; PByte 84; PModRM; PSib; PDisp],
    [TByte 102; TByte 15; TByte 84; TSlash 0 1]);
  (* 4714-4727; 121 *) (Inst "andpd" [KX; KMem] (Some (Op 0, 1)) None [PByte 102; PModRex false; PByte 15; PByte 84; PModRM; PSib; PDisp],
    [TByte 102; TByte 15; TByte 84; TSlash 0 1]);
  (* 4732-4744; 126 *) (Inst "andps" [KX; KX] (Some (Op 0, 1)) None [PModRex false; PByte 15; PByte 84; PModRM; PSib; PDisp],
    [TByte 15; TByte 84; TSlash 0 1]);
  (* 4747-4759; 126 *) (Inst "andps" [KX; KMem] (Some (Op 0, 1)) None [PModRex false; PByte 15; PByte 84; PModRM; PSib; PDisp],
    [TByte 15; TByte 84; TSlash 0 1]);
  (* 4764-4775; 131 *) (Inst "andq" [K64; K64] (Some (Op 0, 1)) None [PModRex true; PByte 35; PModRM; PSib; PDisp],
    [TRexW; TByte 35; TSlash 0 1]);
  (* 4778-4789; 131 *) (Inst "andq" [K64; KMem] (Some (Op 0, 1)) None [PModRex true; PByte 35; PModRM; PSib; PDisp],
    [TRexW; TByte 35; TSlash 0 1]);
  (* 4792-4803; 132 *) (Inst "andq" [KMem; K64] (Some (Op 1, 0)) None [PModRex true; PByte 33; PModRM; PSib; PDisp],
    [TRexW; TByte 33; TSlash 1 0]);
  (* 4806-4818; 133 *) (Inst "andq" [K64; KI8] (Some (Digit 4, 0)) None [PModRex true; PByte 131; PModRM; PSib; PDisp; PImm 1],
    [TRexW; TByte 131; TDigit 4 0; TImm 1 1]);
  (* 4821-4833; 133 *) (Inst "andq" [KMem; KI8] (Some (Digit 4, 0)) None [PModRex true; PByte 131; PModRM; PSib; PDisp; PImm 1],
    [TRexW; TByte 131; TDigit 4 0; TImm 1 1]);
  (* 4836-4848; 134 *) (Inst "andq" [K64; KI32] (Some (Digit 4, 0)) None [PModRex true; PByte 129; PModRM; PSib; PDisp; PImm 1],
    [TRexW; TByte 129; TDigit 4 0; TImm 4 1]);
  (* 4851-4863; 134 *) (Inst "andq" [KMem; KI32] (Some (Digit 4, 0)) None [PModRex true; PByte 129; PModRM; PSib; PDisp; PImm 1],
    [TRexW; TByte 129; TDigit 4 0; TImm 4 1]);
  (* 4866-4874; 135 *) (Inst "andq" [KFixed FRax; KI32] None None [PRex true; PByte 37; PImm 1],
    [TRexW; TByte 37; TImm 4 1]);
  (* 4879-4891; 140 *) (Inst "andw" [K16; K16] (Some (Op 0, 1)) None [PByte 102; PModRex false; PByte 35; PModRM; PSib; PDisp],
    [TByte 102; TByte 35; TSlash 0 1]);
  (* 4894-4906; 140 *) (Inst "andw" [K16; KMem] (Some (Op 0, 1)) None [PByte 102; PModRex false; PByte 35; PModRM; PSib; PDisp],
    [TByte 102; TByte 35; TSlash 0 1])].

Definition table1 : list (inst * list token) := [
  (* 4909-4921; 141 *) (Inst "andw" [KMem; K16] (Some (Op 1, 0)) None [PByte 102; PModRex false; PByte 33; PModRM; PSib; PDisp],
    [TByte 102; TByte 33; TSlash 1 0]);
  (* 4924-4937; 142 *) (Inst "andw" [K16; KI8] (Some (Digit 4, 0)) None [PByte 102; PModRex false; PByte 131; PModRM; PSib; PDisp; PImm 1],
    [TByte 102; TByte 131; TDigit 4 0; TImm 1 1]);
  (* 4940-4953; 142 *) (Inst "andw" [KMem; KI8] (Some (Digit 4, 0)) None [PByte 102; PModRex false; PByte 131; PModRM; PSib; PDisp; PImm 1],
    [TByte 102; TByte 131; TDigit 4 0; TImm 1 1]);
  (* 4956-4969; 143 *) (Inst "andw" [K16; KI16] (Some (Digit 4, 0)) None [PByte 102; PModRex false; PByte 129; PModRM; PSib; PDisp; PImm 1],
    [TByte 102; TByte 129; TDigit 4 0; TImm 2 1]);
  (* 4972-4985; 143 *) (Inst "andw" [KMem; KI16] (Some (Digit 4, 0)) None [PByte 102; PModRex false; PByte 129; PModRM; PSib; PDisp; PImm 1],
    [TByte 102; TByte 129; TDigit 4 0; TImm 2 1]);
  (* 4988-4996; 144 *) (Inst "andw" [KFixed FAx; KI16] None None [PByte 102; PByte 37; PImm 1],
    [TByte 102; TByte 37; TImm 2 1]);
  (* 5001-5016; 149 *) (Inst "blendpd" [KX; KX; KI8] (Some (Op 0, 1)) None [PByte 102; PModRex false; PByte 15; PByte 58; PByte 13; PModRM; PSib; PDisp; PImm 2],
    [TByte 102; TByte 15; TByte 58; TByte 13; TSlash 0 1; TImm 1 2]);
  (* 5019-5034; 149 *) (Inst "blendpd" [KX; KMem; KI8] (Some (Op 0, 1)) None [PByte 102; PModRex false; PByte 15; PByte 58; PByte 13; PModRM; PSib; PDisp; PImm 2],
    [TByte 102; TByte 15; TByte 58; TByte 13; TSlash 0 1; TImm 1 2]);
  (* 5039-5054; 154 *) (Inst "blendps" [KX; KX; KI8] (Some (Op 0, 1)) None [PByte 102; PModRex false; PByte 15; PByte 58; PByte 12; PModRM; PSib; PDisp; PImm 2],
    [TByte 102; TByte 15; TByte 58; TByte 12; TSlash 0 1; TImm 1 2]);
  (* 5057-5072; 154 *) (Inst "blendps" [KX; KMem; KI8] (Some (Op 0, 1)) None [PByte 102; PModRex false; PByte 15; PByte 58; PByte 12; PModRM; PSib; PDisp; PImm 2],
    [TByte 102; TByte 15; TByte 58; TByte 12; TSlash 0 1; TImm 1 2]);
  (* 5077-5091; 159 *) (Inst "blendvpd" [KX; KX; KFixed FXmm0] (Some (Op 0, 1)) None [PByte 102; PModRex false; PByte 15; PByte 56; PByte 21; PModRM; PSib; PDisp],
    [TByte 102; TByte 15; TByte 56; TByte 21; TSlash 0 1]);
  (* 5094-5108; 159 *) (Inst "blendvpd" [KX; KMem; KFixed FXmm0] (Some (Op 0, 1)) None [PByte 102; PModRex false; PByte 15; PByte 56; PByte 21; PModRM; PSib; PDisp],
    [TByte 102; TByte 15; TByte 56; TByte 21; TSlash 0 1]);
  (* 5113-5127; 164 *) (Inst "blendvps" [KX; KX; KFixed FXmm0] (Some (Op 0, 1)) None [PByte 102; PModRex false; PByte 15; PByte 56; PByte 20; PModRM; PSib; PDisp],
    [TByte 102; TByte 15; TByte 56; TByte 20; TSlash 0 1]);
  (* 5130-5144; 164 *) (Inst "blendvps" [KX; KMem; KFixed FXmm0] (Some (Op 0, 1)) None [PByte 102; PModRex false; PByte 15; PByte 56; PByte 20; PModRM; PSib; PDisp],
    [TByte 102; TByte 15; TByte 56; TByte 20; TSlash 0 1]);
  (* 5149-5161; 169 *) (Inst "bsfl" [K32; K32] (Some (Op 0, 1)) None [PModRex false; PByte 15; PByte 188; PModRM; PSib; PDisp],
    [TByte 15; TByte 188; TSlash 0 1]);
  (* 5164-5176; 169 *) (Inst "bsfl" [K32; KMem] (Some (Op 0, 1)) None [PModRex false; PByte 15; PByte 188; PModRM; PSib; PDisp],
    [TByte 15; TByte 188; TSlash 0 1]);
  (* 5181-5193; 174 *) (Inst "bsfq" [K64; K64] (Some (Op 0, 1)) None [PModRex true; PByte 15; PByte 188; PModRM; PSib; PDisp],
    [TRexW; TByte 15; TByte 188; TSlash 0 1]);
  (* 5196-5208; 174 *) (Inst "bsfq" [K64; KMem] (Some (Op 0, 1)) None [PModRex true; PByte 15; PByte 188; PModRM; PSib; PDisp],
    [TRexW; TByte 15; TByte 188; TSlash 0 1]);
  (* 5213-5226; 179 *) (Inst "bsfw" [K16; K16] (Some (Op 0, 1)) None [PByte 102; PModRex false; PByte 15; PByte 188; PModRM; PSib; PDisp],
    [TByte 102; TByte 15; TByte 188; TSlash 0 1]);
  (* 5229-5242; 179 *) (Inst "bsfw" [K16; KMem] (Some (Op 0, 1)) None [PByte 102; PModRex false; PByte 15; PByte 188; PModRM; PSib; PDisp],
    [TByte 102; TByte 15; TByte 188; TSlash 0 1]);
  (* 5247-5259; 184 *) (Inst "bsrl" [K32; K32] (Some (Op 0, 1)) None [PModRex false; PByte 15; PByte 189; PModRM; PSib; PDisp],
    [TByte 15; TByte 189; TSlash 0 1]);
  (* 5262-5274; 184 *) (Inst "bsrl" [K32; KMem] (Some (Op 0, 1)) None [PModRex false; PByte 15; PByte 189; PModRM; PSib; PDisp],
    [TByte 15; TByte 189; TSlash 0 1]);
  (* 5279-5291; 189 *) (Inst "bsrq" [K64; K64] (Some (Op 0, 1)) None [PModRex true; PByte 15; PByte 189; PModRM; PSib; PDisp],
    [TRexW; TByte 15; TByte 189; TSlash 0 1]);
  (* 5294-5306; 189 *) (Inst "bsrq" [K64; KMem] (Some (Op 0, 1)) None [PModRex true; PByte 15; PByte 189; PModRM; PSib; PDisp],
    [TRexW; TByte 15; TByte 189; TSlash 0 1]);
  (* 5311-5324; 194 *) (Inst "bsrw" [K16; K16] (Some (Op 0, 1)) None [PByte 102; PModRex false; PByte 15; PByte 189; PModRM; PSib; PDisp],
    [TByte 102; TByte 15; TByte 189; TSlash 0 1]);
  (* 5327-5340; 194 *) (Inst "bsrw" [K16; KMem] (Some (Op 0, 1)) None [PByte 102; PModRex false; PByte 15; PByte 189; PModRM; PSib; PDisp],
    [TByte 102; TByte 15; TByte 189; TSlash 0 1]);
  (* 5345-5354; 199 *) (Inst "bswap" [K32] None (Some 0) [PRioRex false; PByte 15; PBytePlus 200],
    [TByte 15; TByte 200; TPlus 0]);
  (* 5357-5366; 200 *) (Inst "bswap" [K64] None (Some 0) [PRioRex true; PByte 15; PBytePlus 200],
    [TRexW; TByte 15; TByte 200; TPlus 0]);
  (* 5371-5383; 205 *) (Inst "btcl" [K32; K32] (Some (Op 1, 0)) None [PModRex false; PByte 15; PByte 187; PModRM; PSib; PDisp],
    [TByte 15; TByte 187; TSlash 1 0]);
  (* 5386-5398; 205 *) (Inst "btcl" [KMem; K32] (Some (Op 1, 0)) None [PModRex false; PByte 15; PByte 187; PModRM; PSib; PDisp],
    [TByte 15; TByte 187; TSlash 1 0]);
  (* 5401-5414; 206 *) (Inst "btcl" [K32; KI8] (Some (Digit 7, 0)) None [PModRex false; PByte 15; PByte 186; PModRM; PSib; PDisp; PImm 1],
    [TByte 15; TByte 186; TDigit 7 0; TImm 1 1]);
  (* 5417-5430; 206 *) (Inst "btcl" [KMem; KI8] (Some (Digit 7, 0)) None [PModRex false; PByte 15; PByte 186; PModRM; PSib; PDisp; PImm 1],
    [TByte 15; TByte 186; TDigit 7 0; TImm 1 1]);
  (* 5435-5447; 211 *) (Inst "btcq" [K64; K64] (Some (Op 1, 0)) None [PModRex true; PByte 15; PByte 187; PModRM; PSib; PDisp],
    [TRexW; TByte 15; TByte 187; TSlash 1 0]);
  (* 5450-5462; 211 *) (Inst "btcq" [KMem; K64] (Some (Op 1, 0)) None [PModRex true; PByte 15; PByte 187; PModRM; PSib; PDisp],
    [TRexW; TByte 15; TByte 187; TSlash 1 0]);
  (* 5465-5478; 212 *) (Inst "btcq" [K64; KI8] (Some (Digit 7, 0)) None [PModRex true; PByte 15; PByte 186; PModRM; PSib; PDisp; PImm 1],
    [TRexW; TByte 15; TByte 186; TDigit 7 0; TImm 1 1]);
  (* 5481-5494; 212 *) (Inst "btcq" [KMem; KI8] (Some (Digit 7, 0)) None [PModRex true; PByte 15; PByte 186; PModRM; PSib; PDisp; PImm 1],
    [TRexW; TByte 15; TByte 186; TDigit 7 0; TImm 1 1]);
  (* 5499-5512; 217 *) (Inst "btcw" [K16; K16] (Some (Op 1, 0)) None [PByte 102; PModRex false; PByte 15; PByte 187; PModRM; PSib; PDisp],
    [TByte 102; TByte 15; TByte 187; TSlash 1 0]);
  (* 5515-5528; 217 *) (Inst "btcw" [KMem; K16] (Some (Op 1, 0)) None [PByte 102; PModRex false; PByte 15; PByte 187; PModRM; PSib; PDisp],
    [TByte 102; TByte 15; TByte 187; TSlash 1 0]);
  (* 5531-5545; 218 *) (Inst "btcw" [K16; KI8] (Some (Digit 7, 0)) None [PByte 102; PModRex false; PByte 15; PByte 186; PModRM; PSib; PDisp; PImm 1],
    [TByte 102; TByte 15; TByte 186; TDigit 7 0; TImm 1 1]);
  (* 5548-5562; 218 *) (Inst "btcw" [KMem; KI8] (Some (Digit 7, 0)) None [PByte 102; PModRex false; PByte 15; PByte 186; PModRM; PSib; PDisp; PImm 1],
    [TByte 102; TByte 15; TByte 186; TDigit 7 0; TImm 1 1]);
  (* 5567-5579; 223 *) (Inst "btl" [K32; K32] (Some (Op 1, 0)) None [PModRex false; PByte 15; PByte 163; PModRM; PSib; PDisp],
    [TByte 15; TByte 163; TSlash 1 0]);
  (* 5582-5594; 223 *) (Inst "btl" [KMem; K32] (Some (Op 1, 0)) None [PModRex false; PByte 15; PByte 163; PModRM; PSib; PDisp],
    [TByte 15; TByte 163; TSlash 1 0]);
  (* 5597-5610; 224 *) (Inst "btl" [K32; KI8] (Some (Digit 4, 0)) None [PModRex false; PByte 15; PByte 186; PModRM; PSib; PDisp; PImm 1],
    [TByte 15; TByte 186; TDigit 4 0; TImm 1 1]);
  (* 5613-5626; 224 *) (Inst "btl" [KMem; KI8] (Some (Digit 4, 0)) None [PModRex false; PByte 15; PByte 186; PModRM; PSib; PDisp; PImm 1],
    [TByte 15; TByte 186; TDigit 4 0; TImm 1 1]);
  (* 5631-5643; 229 *) (Inst "btq" [K64; K64] (Some (Op 1, 0)) None [PModRex true; PByte 15; PByte 163; PModRM; PSib; PDisp],
    [TRexW; TByte 15; TByte 163; TSlash 1 0]);
  (* 5646-5658; 229 *) (Inst "btq" [KMem; K64] (Some (Op 1, 0)) None [PModRex true; PByte 15; PByte 163; PModRM; PSib; PDisp],
    [TRexW; TByte 15; TByte 163; TSlash 1 0]);
  (* 5661-5674; 230 *) (Inst "btq" [K64; KI8] (Some (Digit 4, 0)) None [PModRex true; PByte 15; PByte 186; PModRM; PSib; PDisp; PImm 1],
    [TRexW; TByte 15; TByte 186; TDigit 4 0; TImm 1 1]);
  (* 5677-5690; 230 *) (Inst "btq" [KMem; KI8] (Some (Digit 4, 0)) None [PModRex true; PByte 15; PByte 186; PModRM; PSib; PDisp; PImm 1],
    [TRexW; TByte 15; TByte 186; TDigit 4 0; TImm 1 1]);
  (* 5695-5707; 235 *) (Inst "btrl" [K32; K32] (Some (Op 1, 0)) None [PModRex false; PByte 15; PByte 179; PModRM; PSib; PDisp],
    [TByte 15; TByte 179; TSlash 1 0]);
  (* 5710-5722; 235 *) (Inst "btrl" [KMem; K32] (Some (Op 1, 0)) None [PModRex false; PByte 15; PByte 179; PModRM; PSib; PDisp],
    [TByte 15; TByte 179; TSlash 1 0]);
  (* 5725-5738; 236 *) (Inst "btrl" [K32; KI8] (Some (Digit 6, 0)) None [PModRex false; PByte 15; PByte 186; PModRM; PSib; PDisp; PImm 1],
    [TByte 15; TByte 186; TDigit 6 0; TImm 1 1]);
  (* 5741-5754; 236 *) (Inst "btrl" [KMem; KI8] (Some (Digit 6, 0)) None [PModRex false; PByte 15; PByte 186; PModRM; PSib; PDisp; PImm 1],
    [TByte 15; TByte 186; TDigit 6 0; TImm 1 1]);
  (* 5759-5771; 241 *) (Inst "btrq" [K64; K64] (Some (Op 1, 0)) None [PModRex true; PByte 15; PByte 179; PModRM; PSib; PDisp],
    [TRexW; TByte 15; TByte 179; TSlash 1 0]);
  (* 5774-5786; 241 *) (Inst "btrq" [KMem; K64] (Some (Op 1, 0)) None [PModRex true; PByte 15; PByte 179; PModRM; PSib; PDisp],
    [TRexW; TByte 15; TByte 179; TSlash 1 0]);
  (* 5789-5802; 242 *) (Inst "btrq" [K64; KI8] (Some (Digit 6, 0)) None [PModRex true; PByte 15; PByte 186; PModRM; PSib; PDisp; PImm 1],
    [TRexW; TByte 15; TByte 186; TDigit 6 0; TImm 1 1]);
  (* 5805-5818; 242 *) (Inst "btrq" [KMem; KI8] (Some (Digit 6, 0)) None [PModRex true; PByte 15; PByte 186; PModRM; PSib; PDisp; PImm 1],
    [TRexW; TByte 15; TByte 186; TDigit 6 0; TImm 1 1]);
  (* 5823-5836; 247 *) (Inst "btrw" [K16; K16] (Some (Op 1, 0)) None [PByte 102; PModRex false; PByte 15; PByte 179; PModRM; PSib; PDisp],
    [TByte 102; TByte 15; TByte 179; TSlash 1 0]);
  (* 5839-5852; 247 *) (Inst "btrw" [KMem; K16] (Some (Op 1, 0)) None [PByte 102; PModRex false; PByte 15; PByte 179; PModRM; PSib; PDisp],
    [TByte 102; TByte 15; TByte 179; TSlash 1 0]);
  (* 5855-5869; 248 *) (Inst "btrw" [K16; KI8] (Some (Digit 6, 0)) None [PByte 102; PModRex false; PByte 15; PByte 186; PModRM; PSib; PDisp; PImm 1],
    [TByte 102; TByte 15; TByte 186; TDigit 6 0; TImm 1 1]);
  (* 5872-5886; 248 *) (Inst "btrw" [KMem; KI8] (Some (Digit 6, 0)) None [PByte 102; PModRex false; PByte 15; PByte 186; PModRM; PSib; PDisp; PImm 1],
    [TByte 102; TByte 15; TByte 186; TDigit 6 0; TImm 1 1]);
  (* 5891-5903; 253 *) (Inst "btsl" [K32; K32] (Some (Op 1, 0)) None [PModRex false; PByte 15; PByte 171; PModRM; PSib; PDisp],
    [TByte 15; TByte 171; TSlash 1 0]);
  (* 5906-5918; 253 *) (Inst "btsl" [KMem; K32] (Some (Op 1, 0)) None [PModRex false; PByte 15; PByte 171; PModRM; PSib; PDisp],
    [TByte 15; TByte 171; TSlash 1 0]);
  (* 5921-5934; 254 *) (Inst "btsl" [K32; KI8] (Some (Digit 5, 0)) None [PModRex false; PByte 15; PByte 186; PModRM; PSib; PDisp; PImm 1],
    [TByte 15; TByte 186; TDigit 5 0; TImm 1 1]);
  (* 5937-5950; 254 *) (Inst "btsl" [KMem; KI8] (Some (Digit 5, 0)) None [PModRex false; PByte 15; PByte 186; PModRM; PSib; PDisp; PImm 1],
    [TByte 15; TByte 186; TDigit 5 0; TImm 1 1]);
  (* 5955-5967; 259 *) (Inst "btsq" [K64; K64] (Some (Op 1, 0)) None [PModRex true; PByte 15; PByte 171; PModRM; PSib; PDisp],
    [TRexW; TByte 15; TByte 171; TSlash 1 0]);
  (* 5970-5982; 259 *) (Inst "btsq" [KMem; K64] (Some (Op 1, 0)) None [PModRex true; PByte 15; PByte 171; PModRM; PSib; PDisp],
    [TRexW; TByte 15; TByte 171; TSlash 1 0]);
  (* 5985-5998; 260 *) (Inst "btsq" [K64; KI8] (Some (Digit 5, 0)) None [PModRex true; PByte 15; PByte 186; PModRM; PSib; PDisp; PImm 1],
    [TRexW; TByte 15; TByte 186; TDigit 5 0; TImm 1 1]);
  (* 6001-6014; 260 *) (Inst "btsq" [KMem; KI8] (Some (Digit 5, 0)) None [PModRex true; PByte 15; PByte 186; PModRM; PSib; PDisp; PImm 1],
    [TRexW; TByte 15; TByte 186; TDigit 5 0; TImm 1 1]);
  (* 6019-6032; 265 *) (Inst "btsw" [K16; K16] (Some (Op 1, 0)) None [PByte 102; PModRex false; PByte 15; PByte 171; PModRM; PSib; PDisp],
    [TByte 102; TByte 15; TByte 171; TSlash 1 0]);
  (* 6035-6048; 265 *) (Inst "btsw" [KMem; K16] (Some (Op 1, 0)) None [PByte 102; PModRex false; PByte 15; PByte 171; PModRM; PSib; PDisp],
    [TByte 102; TByte 15; TByte 171; TSlash 1 0]);
  (* 6051-6065; 266 *) (Inst "btsw" [K16; KI8] (Some (Digit 5, 0)) None [PByte 102; PModRex false; PByte 15; PByte 186; PModRM; PSib; PDisp; PImm 1],
    [TByte 102; TByte 15; TByte 186; TDigit 5 0; TImm 1 1]);
  (* 6068-6082; 266 *) (Inst "btsw" [KMem; KI8] (Some (Digit 5, 0)) None [PByte 102; PModRex false; PByte 15; PByte 186; PModRM; PSib; PDisp; PImm 1],
    [TByte 102; TByte 15; TByte 186; TDigit 5 0; TImm 1 1]);
  (* 6087-6100; 271 *) (Inst "btw" [K16; K16] (Some (Op 1, 0)) None [PByte 102; PModRex false; PByte 15; PByte 163; PModRM; PSib; PDisp],
    [TByte 102; TByte 15; TByte 163; TSlash 1 0]);
  (* 6103-6116; 271 *) (Inst "btw" [KMem; K16] (Some (Op 1, 0)) None [PByte 102; PModRex false; PByte 15; PByte 163; PModRM; PSib; PDisp],
    [TByte 102; TByte 15; TByte 163; TSlash 1 0]);
  (* 6119-6133; 272 *) (Inst "btw" [K16; KI8] (Some (Digit 4, 0)) None [PByte 102; PModRex false; PByte 15; PByte 186; PModRM; PSib; PDisp; PImm 1],
    [TByte 102; TByte 15; TByte 186; TDigit 4 0; TImm 1 1]);
  (* 6136-6150; 272 *) (Inst "btw" [KMem; KI8] (Some (Digit 4, 0)) None [PByte 102; PModRex false; PByte 15; PByte 186; PModRM; PSib; PDisp; PImm 1],
    [TByte 102; TByte 15; TByte 186; TDigit 4 0; TImm 1 1]);
  (* 6155-6162; 277 *) (Inst "callq" [KI32] None None [PByte 232; PImm 0],
    [TByte 232; TImm 4 0]);
  (* 6165-6176; 278 *) (Inst "callq" [K64] (Some (Digit 2, 0)) None [PModRex false; PByte 255; PModRM; PSib; PDisp],
    [TByte 255; TDigit 2 0]);
  (* 6179-6190; 278 *) (Inst "callq" [KMem] (Some (Digit 2, 0)) None [PModRex false; PByte 255; PModRM; PSib; PDisp],
    [TByte 255; TDigit 2 0]);
  (* 6195-6202; 283 *) (Inst "cbtw" [] None None [PByte 102; PByte 152],
    [TByte 102; TByte 152]);
  (* 6207-6213; 288 *) (Inst "clc" [] None None [PByte 248],
    [TByte 248]);
  (* 6218-6224; 293 *) (Inst "cld" [] None None [PByte 252],
    [TByte 252]);
  (* 6229-6235; 298 *) (Inst "cli" [] None None [PByte 250],
    [TByte 250]);
  (* 6240-6246; 303 *) (Inst "cltd" [] None None [PByte 153],
    [TByte 153]);
  (* 6251-6258; 308 *) (Inst "cltq" [] None None [PRex true; PByte 152],
    [TRexW; TByte 152]);
  (* 6263-6270; 313 *) (Inst "clts" [] None None [PByte 15; PByte 6],
    [TByte 15; TByte 6]);
  (* 6275-6281; 318 *) (Inst "cmc" [] None None [PByte 245],
    [TByte 245]);
  (* 6286-6297; 323 *) (Inst "cmpb" [K8; K8] (Some (Op 0, 1)) None [PModRex false; PByte 58; PModRM; PSib; PDisp],
    [TByte 58; TSlash 0 1]);
  (* 6300-6311; 323 *) (Inst "cmpb" [K8; KMem] (Some (Op 0, 1)) None [PModRex false; PByte 58; PModRM; PSib; PDisp],
    [TByte 58; TSlash 0 1]);
  (* 6314-6325; 324 *) (Inst "cmpb" [KMem; K8] (Some (Op 1, 0)) None [PModRex false; PByte 56; PModRM; PSib; PDisp],
    [TByte 56; TSlash 1 0]);
  (* 6328-6340; 325 *) (Inst "cmpb" [K8; KI8] (Some (Digit 7, 0)) None [PModRex false; PByte 128; PModRM; PSib; PDisp; PImm 1],
    [TByte 128; TDigit 7 0; TImm 1 1]);
  (* 6343-6355; 325 *) (Inst "cmpb" [KMem; KI8] (Some (Digit 7, 0)) None [PModRex false; PByte 128; PModRM; PSib; PDisp; PImm 1],
    [TByte 128; TDigit 7 0; TImm 1 1]);
  (* 6358-6365; 326 *) (Inst "cmpb" [KFixed FAl; KI8] None None [PByte 60; PImm 1],
    [TByte 60; TImm 1 1]);
  (* 6370-6381; 331 *) (Inst "cmpl" [K32; K32] (Some (Op 0, 1)) None [PModRex false; PByte 59; PModRM; PSib; PDisp],
    [TByte 59; TSlash 0 1]);
  (* 6384-6395; 331 *) (Inst "cmpl" [K32; KMem] (Some (Op 0, 1)) None [PModRex false; PByte 59; PModRM; PSib; PDisp],
    [TByte 59; TSlash 0 1]);
  (* 6398-6409; 332 *) (Inst "cmpl" [KMem; K32] (Some (Op 1, 0)) None [PModRex false; PByte 57; PModRM; PSib; PDisp],
    [TByte 57; TSlash 1 0]);
  (* 6412-6424; 333 *) (Inst "cmpl" [K32; KI8] (Some (Digit 7, 0)) None [PModRex false; PByte 131; PModRM; PSib; PDisp; PImm 1],
    [TByte 131; TDigit 7 0; TImm 1 1]);
  (* 6427-6439; 333 *) (Inst "cmpl" [KMem; KI8] (Some (Digit 7, 0)) None [PModRex false; PByte 131; PModRM; PSib; PDisp; PImm 1],
    [TByte 131; TDigit 7 0; TImm 1 1]);
  (* 6442-6454; 334 *) (Inst "cmpl" [K32; KI32] (Some (Digit 7, 0)) None [PModRex false; PByte 129; PModRM; PSib; PDisp; PImm 1],
    [TByte 129; TDigit 7 0; TImm 4 1]);
  (* 6457-6469; 334 *) (Inst "cmpl" [KMem; KI32] (Some (Digit 7, 0)) None [PModRex false; PByte 129; PModRM; PSib; PDisp; PImm 1],
    [TByte 129; TDigit 7 0; TImm 4 1])].

Definition table2 : list (inst * list token) := [
  (* 6472-6479; 335 *) (Inst "cmpl" [KFixed FEax; KI32] None None [PByte 61; PImm 1],
    [TByte 61; TImm 4 1]);
  (* 6484-6498; 340 *) (Inst "cmppd" [KX; KX; KI8] (Some (Op 0, 1)) None [PByte 102; PModRex false; PByte 15; PByte 194; PModRM; PSib; PDisp; PImm 2],
    [TByte 102; TByte 15; TByte 194; TSlash 0 1; TImm 1 2]);
  (* 6501-6515; 340 *) (Inst "cmppd" [KX; KMem; KI8] (Some (Op 0, 1)) None [PByte 102; PModRex false; PByte 15; PByte 194; PModRM; PSib; PDisp; PImm 2],
    [TByte 102; TByte 15; TByte 194; TSlash 0 1; TImm 1 2]);
  (* 6520-6533; 345 *) (Inst "cmpps" [KX; KX; KI8] (Some (Op 0, 1)) None [PModRex false; PByte 15; PByte 194; PModRM; PSib; PDisp; PImm 2],
    [TByte 15; TByte 194; TSlash 0 1; TImm 1 2]);
  (* 6536-6549; 345 *) (Inst "cmpps" [KX; KMem; KI8] (Some (Op 0, 1)) None [PModRex false; PByte 15; PByte 194; PModRM; PSib; PDisp; PImm 2],
    [TByte 15; TByte 194; TSlash 0 1; TImm 1 2]);
  (* 6554-6565; 350 *) (Inst "cmpq" [K64; K64] (Some (Op 0, 1)) None [PModRex true; PByte 59; PModRM; PSib; PDisp],
    [TRexW; TByte 59; TSlash 0 1]);
  (* 6568-6579; 350 *) (Inst "cmpq" [K64; KMem] (Some (Op 0, 1)) None [PModRex true; PByte 59; PModRM; PSib; PDisp],
    [TRexW; TByte 59; TSlash 0 1]);
  (* 6582-6593; 351 *) (Inst "cmpq" [KMem; K64] (Some (Op 1, 0)) None [PModRex true; PByte 57; PModRM; PSib; PDisp],
    [TRexW; TByte 57; TSlash 1 0]);
  (* 6596-6608; 352 *) (Inst "cmpq" [K64; KI8] (Some (Digit 7, 0)) None [PModRex true; PByte 131; PModRM; PSib; PDisp; PImm 1],
    [TRexW; TByte 131; TDigit 7 0; TImm 1 1]);
  (* 6611-6623; 352 *) (Inst "cmpq" [KMem; KI8] (Some (Digit 7, 0)) None [PModRex true; PByte 131; PModRM; PSib; PDisp; PImm 1],
    [TRexW; TByte 131; TDigit 7 0; TImm 1 1]);
  (* 6626-6638; 353 *) (Inst "cmpq" [K64; KI32] (Some (Digit 7, 0)) None [PModRex true; PByte 129; PModRM; PSib; PDisp; PImm 1],
    [TRexW; TByte 129; TDigit 7 0; TImm 4 1]);
  (* 6641-6653; 353 *) (Inst "cmpq" [KMem; KI32] (Some (Digit 7, 0)) None [PModRex true; PByte 129; PModRM; PSib; PDisp; PImm 1],
    [TRexW; TByte 129; TDigit 7 0; TImm 4 1]);
  (* 6656-6664; 354 *) (Inst "cmpq" [KFixed FRax; KI32] None None [PRex true; PByte 61; PImm 1],
    [TRexW; TByte 61; TImm 4 1]);
  (* 6669-6683; 359 *) (Inst "cmpsd" [KX; KX; KI8] (Some (Op 0, 1)) None [PByte 242; PModRex false; PByte 15; PByte 194; PModRM; PSib; PDisp; PImm 2],
    [TByte 242; TByte 15; TByte 194; TSlash 0 1; TImm 1 2]);
  (* 6686-6700; 359 *) (Inst "cmpsd" [KX; KMem; KI8] (Some (Op 0, 1)) None [PByte 242; PModRex false; PByte 15; PByte 194; PModRM; PSib; PDisp; PImm 2],
    [TByte 242; TByte 15; TByte 194; TSlash 0 1; TImm 1 2]);
  (* 6705-6711; 364 *) (Inst "cmpsl" [] None None [PByte 167],
    [TByte 167]);
  (* 6716-6730; 369 *) (Inst "cmpss" [KX; KX; KI8] (Some (Op 0, 1)) None [PByte 243; PModRex false; PByte 15; PByte 194; PModRM; PSib; PDisp; PImm 2],
    [TByte 243; TByte 15; TByte 194; TSlash 0 1; TImm 1 2]);
  (* 6733-6747; 369 *) (Inst "cmpss" [KX; KMem; KI8] (Some (Op 0, 1)) None [PByte 243; PModRex false; PByte 15; PByte 194; PModRM; PSib; PDisp; PImm 2],
    [TByte 243; TByte 15; TByte 194; TSlash 0 1; TImm 1 2]);
  (* 6752-6764; 374 *) (Inst "cmpw" [K16; K16] (Some (Op 0, 1)) None [PByte 102; PModRex false; PByte 59; PModRM; PSib; PDisp],
    [TByte 102; TByte 59; TSlash 0 1]);
  (* 6767-6779; 374 *) (Inst "cmpw" [K16; KMem] (Some (Op 0, 1)) None [PByte 102; PModRex false; PByte 59; PModRM; PSib; PDisp],
    [TByte 102; TByte 59; TSlash 0 1]);
  (* 6782-6794; 375 *) (Inst "cmpw" [KMem; K16] (Some (Op 1, 0)) None [PByte 102; PModRex false; PByte 57; PModRM; PSib; PDisp],
    [TByte 102; TByte 57; TSlash 1 0]);
  (* 6797-6810; 376 *) (Inst "cmpw" [K16; KI8] (Some (Digit 7, 0)) None [PByte 102; PModRex false; PByte 131; PModRM; PSib; PDisp; PImm 1],
    [TByte 102; TByte 131; TDigit 7 0; TImm 1 1]);
  (* 6813-6826; 376 *) (Inst "cmpw" [KMem; KI8] (Some (Digit 7, 0)) None [PByte 102; PModRex false; PByte 131; PModRM; PSib; PDisp; PImm 1],
    [TByte 102; TByte 131; TDigit 7 0; TImm 1 1]);
  (* 6829-6842; 377 *) (Inst "cmpw" [K16; KI16] (Some (Digit 7, 0)) None [PByte 102; PModRex false; PByte 129; PModRM; PSib; PDisp; PImm 1],
    [TByte 102; TByte 129; TDigit 7 0; TImm 2 1]);
  (* 6845-6858; 377 *) (Inst "cmpw" [KMem; KI16] (Some (Digit 7, 0)) None [PByte 102; PModRex false; PByte 129; PModRM; PSib; PDisp; PImm 1],
    [TByte 102; TByte 129; TDigit 7 0; TImm 2 1]);
  (* 6861-6869; 378 *) (Inst "cmpw" [KFixed FAx; KI16] None None [PByte 102; PByte 61; PImm 1],
    [TByte 102; TByte 61; TImm 2 1]);
  (* 6874-6886; 383 *) (Inst "cmpxchgb" [K8; K8] (Some (Op 1, 0)) None [PModRex false; PByte 15; PByte 176; PModRM; PSib; PDisp],
    [TByte 15; TByte 176; TSlash 1 0]);
  (* 6889-6901; 383 *) (Inst "cmpxchgb" [KMem; K8] (Some (Op 1, 0)) None [PModRex false; PByte 15; PByte 176; PModRM; PSib; PDisp],
    [TByte 15; TByte 176; TSlash 1 0]);
  (* 6906-6918; 388 *) (Inst "cmpxchgl" [K32; K32] (Some (Op 1, 0)) None [PModRex false; PByte 15; PByte 177; PModRM; PSib; PDisp],
    [TByte 15; TByte 177; TSlash 1 0]);
  (* 6921-6933; 388 *) (Inst "cmpxchgl" [KMem; K32] (Some (Op 1, 0)) None [PModRex false; PByte 15; PByte 177; PModRM; PSib; PDisp],
    [TByte 15; TByte 177; TSlash 1 0]);
  (* 6938-6950; 393 *) (Inst "cmpxchgq" [K64; K64] (Some (Op 1, 0)) None [PModRex true; PByte 15; PByte 177; PModRM; PSib; PDisp],
    [TRexW; TByte 15; TByte 177; TSlash 1 0]);
  (* 6953-6965; 393 *) (Inst "cmpxchgq" [KMem; K64] (Some (Op 1, 0)) None [PModRex true; PByte 15; PByte 177; PModRM; PSib; PDisp],
    [TRexW; TByte 15; TByte 177; TSlash 1 0]);
  (* 6970-6983; 398 *) (Inst "cmpxchgw" [K16; K16] (Some (Op 1, 0)) None [PByte 102; PModRex false; PByte 15; PByte 177; PModRM; PSib; PDisp],
    [TByte 102; TByte 15; TByte 177; TSlash 1 0]);
  (* 6986-6999; 398 *) (Inst "cmpxchgw" [KMem; K16] (Some (Op 1, 0)) None [PByte 102; PModRex false; PByte 15; PByte 177; PModRM; PSib; PDisp],
    [TByte 102; TByte 15; TByte 177; TSlash 1 0]);
  (* 7004-7017; 403 *) (Inst "comisd" [KX; KX] (Some (Op 0, 1)) None [PByte 102; PModRex false; PByte 15; PByte 47; PModRM; PSib; PDisp],
    [TByte 102; TByte 15; TByte 47; TSlash 0 1]);
  (* 7020-7033; 403 *) (Inst "comisd" [KX; KMem] (Some (Op 0, 1)) None [PByte 102; PModRex false; PByte 15; PByte 47; PModRM; PSib; PDisp],
    [TByte 102; TByte 15; TByte 47; TSlash 0 1]);
  (* 7038-7050; 408 *) (Inst "comiss" [KX; KX] (Some (Op 0, 1)) None [PModRex false; PByte 15; PByte 47; PModRM; PSib; PDisp],
    [TByte 15; TByte 47; TSlash 0 1]);
  (* 7053-7065; 408 *) (Inst "comiss" [KX; KMem] (Some (Op 0, 1)) None [PModRex false; PByte 15; PByte 47; PModRM; PSib; PDisp],
    [TByte 15; TByte 47; TSlash 0 1]);
  (* 7070-7077; 413 *) (Inst "cpuid" [] None None [PByte 15; PByte 162],
    [TByte 15; TByte 162]);
  (* 7082-7089; 418 *) (Inst "cqto" [] None None [PRex true; PByte 153],
    [TRexW; TByte 153]);
  (* 7094-7108; 423 *) (Inst "crc32b" [K32; K8] (Some (Op 0, 1)) None [PByte 242; PModRex false; PByte 15; PByte 56; PByte 240; PModRM; PSib; PDisp],
    [TByte 242; TByte 15; TByte 56; TByte 240; TSlash 0 1]);
  (* 7111-7125; 423 *) (Inst "crc32b" [K32; KMem] (Some (Op 0, 1)) None [PByte 242; PModRex false; PByte 15; PByte 56; PByte 240; PModRM; PSib; PDisp],
    [TByte 242; TByte 15; TByte 56; TByte 240; TSlash 0 1]);
  (* 7128-7142; 424 *) (Inst "crc32b" [K64; K8] (Some (Op 0, 1)) None [PByte 242; PModRex true; PByte 15; PByte 56; PByte 240; PModRM; PSib; PDisp],
    [TByte 242; TRexW; TByte 15; TByte 56; TByte 240; TSlash 0 1]);
  (* 7145-7159; 424 *) (Inst "crc32b" [K64; KMem] (Some (Op 0, 1)) None [PByte 242; PModRex true; PByte 15; PByte 56; PByte 240; PModRM; PSib; PDisp],
    [TByte 242; TRexW; TByte 15; TByte 56; TByte 240; TSlash 0 1]);
  (* 7164-7178; 429 *) (Inst "crc32l" [K32; K32] (Some (Op 0, 1)) None [PByte 242; PModRex false; PByte 15; PByte 56; PByte 241; PModRM; PSib; PDisp],
    [TByte 242; TByte 15; TByte 56; TByte 241; TSlash 0 1]);
  (* 7181-7195; 429 *) (Inst "crc32l" [K32; KMem] (Some (Op 0, 1)) None [PByte 242; PModRex false; PByte 15; PByte 56; PByte 241; PModRM; PSib; PDisp],
    [TByte 242; TByte 15; TByte 56; TByte 241; TSlash 0 1]);
  (* 7200-7214; 434 *) (Inst "crc32q" [K64; K64] (Some (Op 0, 1)) None [PByte 242; PModRex true; PByte 15; PByte 56; PByte 241; PModRM; PSib; PDisp],
    [TByte 242; TRexW; TByte 15; TByte 56; TByte 241; TSlash 0 1]);
  (* 7217-7231; 434 *) (Inst "crc32q" [K64; KMem] (Some (Op 0, 1)) None [PByte 242; PModRex true; PByte 15; PByte 56; PByte 241; PModRM; PSib; PDisp],
    [TByte 242; TRexW; TByte 15; TByte 56; TByte 241; TSlash 0 1]);
  (* 7236-7251; 439 *) (Inst "crc32w" [K32; K16] (Some (Op 0, 1)) None [PByte 242; PByte 102; PModRex false; PByte 15; PByte 56; PByte 241; PModRM; PSib; PDisp],
    [TByte 242; TByte 102; TByte 15; TByte 56; TByte 241; TSlash 0 1]);
  (* 7254-7269; 439 *) (Inst "crc32w" [K32; KMem] (Some (Op 0, 1)) None [PByte 242; PByte 102; PModRex false; PByte 15; PByte 56; PByte 241; PModRM; PSib; PDisp],
    [TByte 242; TByte 102; TByte 15; TByte 56; TByte 241; TSlash 0 1]);
  (* 7274-7287; 444 *) (Inst "cvtdq2pd" [KX; KX] (Some (Op 0, 1)) None [PByte 243; PModRex false; PByte 15; PByte 230; PModRM; PSib; PDisp],
    [TByte 243; TByte 15; TByte 230; TSlash 0 1]);
  (* 7290-7303; 444 *) (Inst "cvtdq2pd" [KX; KMem] (Some (Op 0, 1)) None [PByte 243; PModRex false; PByte 15; PByte 230; PModRM; PSib; PDisp],
    [TByte 243; TByte 15; TByte 230; TSlash 0 1]);
  (* 7308-7320; 449 *) (Inst "cvtdq2ps" [KX; KX] (Some (Op 0, 1)) None [PModRex false; PByte 15; PByte 91; PModRM; PSib; PDisp],
    [TByte 15; TByte 91; TSlash 0 1]);
  (* 7323-7335; 449 *) (Inst "cvtdq2ps" [KX; KMem] (Some (Op 0, 1)) None [PModRex false; PByte 15; PByte 91; PModRM; PSib; PDisp],
    [TByte 15; TByte 91; TSlash 0 1]);
  (* 7340-7353; 454 *) (Inst "cvtpd2dq" [KX; KX] (Some (Op 0, 1)) None [PByte 242; PModRex false; PByte 15; PByte 230; PModRM; PSib; PDisp],
    [TByte 242; TByte 15; TByte 230; TSlash 0 1]);
  (* 7356-7369; 454 *) (Inst "cvtpd2dq" [KX; KMem] (Some (Op 0, 1)) None [PByte 242; PModRex false; PByte 15; PByte 230; PModRM; PSib; PDisp],
    [TByte 242; TByte 15; TByte 230; TSlash 0 1]);
  (* 7374-7387; 459 *) (Inst "cvtpd2ps" [KX; KX] (Some (Op 0, 1)) None [PByte 102; PModRex false; PByte 15; PByte 90; PModRM; PSib; PDisp],
    [TByte 102; TByte 15; TByte 90; TSlash 0 1]);
  (* 7390-7403; 459 *) (Inst "cvtpd2ps" [KX; KMem] (Some (Op 0, 1)) None [PByte 102; PModRex false; PByte 15; PByte 90; PModRM; PSib; PDisp],
    [TByte 102; TByte 15; TByte 90; TSlash 0 1]);
  (* 7408-7421; 464 *) (Inst "cvtps2dq" [KX; KX] (Some (Op 0, 1)) None [PByte 102; PModRex false; PByte 15; PByte 91; PModRM; PSib; PDisp],
    [TByte 102; TByte 15; TByte 91; TSlash 0 1]);
  (* 7424-7437; 464 *) (Inst "cvtps2dq" [KX; KMem] (Some (Op 0, 1)) None [PByte 102; PModRex false; PByte 15; PByte 91; PModRM; PSib; PDisp],
    [TByte 102; TByte 15; TByte 91; TSlash 0 1]);
  (* 7442-7454; 469 *) (Inst "cvtps2pd" [KX; KX] (Some (Op 0, 1)) None [PModRex false; PByte 15; PByte 90; PModRM; PSib; PDisp],
    [TByte 15; TByte 90; TSlash 0 1]);
  (* 7457-7469; 469 *) (Inst "cvtps2pd" [KX; KMem] (Some (Op 0, 1)) None [PModRex false; PByte 15; PByte 90; PModRM; PSib; PDisp],
    [TByte 15; TByte 90; TSlash 0 1]);
  (* 7474-7487; 474 *) (Inst "cvtsd2si" [K32; KX] (Some (Op 0, 1)) None [PByte 242; PModRex false; PByte 15; PByte 45; PModRM; PSib; PDisp],
    [TByte 242; TByte 15; TByte 45; TSlash 0 1]);
  (* 7490-7503; 474 *) (Inst "cvtsd2si" [K32; KMem] (Some (Op 0, 1)) None [PByte 242; PModRex false; PByte 15; PByte 45; PModRM; PSib; PDisp],
    [TByte 242; TByte 15; TByte 45; TSlash 0 1]);
  (* 7506-7519; 475 *) (Inst "cvtsd2si" [K64; KX] (Some (Op 0, 1)) None [PByte 242; PModRex true; PByte 15; PByte 45; PModRM; PSib; PDisp],
    [TByte 242; TRexW; TByte 15; TByte 45; TSlash 0 1]);
  (* 7522-7535; 475 *) (Inst "cvtsd2si" [K64; KMem] (Some (Op 0, 1)) None [PByte 242; PModRex true; PByte 15; PByte 45; PModRM; PSib; PDisp],
    [TByte 242; TRexW; TByte 15; TByte 45; TSlash 0 1]);
  (* 7540-7553; 480 *) (Inst "cvtsd2ss" [KX; KX] (Some (Op 0, 1)) None [PByte 242; PModRex false; PByte 15; PByte 90; PModRM; PSib; PDisp],
    [TByte 242; TByte 15; TByte 90; TSlash 0 1]);
  (* 7556-7569; 480 *) (Inst "cvtsd2ss" [KX; KMem] (Some (Op 0, 1)) None [PByte 242; PModRex false; PByte 15; PByte 90; PModRM; PSib; PDisp],
    [TByte 242; TByte 15; TByte 90; TSlash 0 1]);
  (* 7574-7587; 485 *) (Inst "cvtsi2sdl" [KX; K32] (Some (Op 0, 1)) None [PByte 242; PModRex false; PByte 15; PByte 42; PModRM; PSib; PDisp],
    [TByte 242; TByte 15; TByte 42; TSlash 0 1]);
  (* 7590-7603; 485 *) (Inst "cvtsi2sdl" [KX; KMem] (Some (Op 0, 1)) None [PByte 242; PModRex false; PByte 15; PByte 42; PModRM; PSib; PDisp],
    [TByte 242; TByte 15; TByte 42; TSlash 0 1]);
  (* 7608-7621; 490 *) (Inst "cvtsi2sdq" [KX; K64] (Some (Op 0, 1)) None [PByte 242; PModRex true; PByte 15; PByte 42; PModRM; PSib; PDisp],
    [TByte 242; TRexW; TByte 15; TByte 42; TSlash 0 1]);
  (* 7624-7637; 490 *) (Inst "cvtsi2sdq" [KX; KMem] (Some (Op 0, 1)) None [PByte 242; PModRex true; PByte 15; PByte 42; PModRM; PSib; PDisp],
    [TByte 242; TRexW; TByte 15; TByte 42; TSlash 0 1]);
  (* 7642-7655; 495 *) (Inst "cvtsi2ssl" [KX; K32] (Some (Op 0, 1)) None [PByte 243; PModRex false; PByte 15; PByte 42; PModRM; PSib; PDisp],
    [TByte 243; TByte 15; TByte 42; TSlash 0 1]);
  (* 7658-7671; 495 *) (Inst "cvtsi2ssl" [KX; KMem] (Some (Op 0, 1)) None [PByte 243; PModRex false; PByte 15; PByte 42; PModRM; PSib; PDisp],
    [TByte 243; TByte 15; TByte 42; TSlash 0 1]);
  (* 7676-7689; 500 *) (Inst "cvtsi2ssq" [KX; K64] (Some (Op 0, 1)) None [PByte 243; PModRex true; PByte 15; PByte 42; PModRM; PSib; PDisp],
    [TByte 243; TRexW; TByte 15; TByte 42; TSlash 0 1]);
  (* 7692-7705; 500 *) (Inst "cvtsi2ssq" [KX; KMem] (Some (Op 0, 1)) None [PByte 243; PModRex true; PByte 15; PByte 42; PModRM; PSib; PDisp],
    [TByte 243; TRexW; TByte 15; TByte 42; TSlash 0 1]);
  (* 7710-7723; 505 *) (Inst "cvtss2sd" [KX; KX] (Some (Op 0, 1)) None [PByte 243; PModRex false; PByte 15; PByte 90; PModRM; PSib; PDisp],
    [TByte 243; TByte 15; TByte 90; TSlash 0 1]);
  (* 7726-7739; 505 *) (Inst "cvtss2sd" [KX; KMem] (Some (Op 0, 1)) None [PByte 243; PModRex false; PByte 15; PByte 90; PModRM; PSib; PDisp],
    [TByte 243; TByte 15; TByte 90; TSlash 0 1]);
  (* 7744-7757; 510 *) (Inst "cvtss2si" [K32; KX] (Some (Op 0, 1)) None [PByte 243; PModRex false; PByte 15; PByte 45; PModRM; PSib; PDisp],
    [TByte 243; TByte 15; TByte 45; TSlash 0 1]);
  (* 7760-7773; 510 *) (Inst "cvtss2si" [K32; KMem] (Some (Op 0, 1)) None [PByte 243; PModRex false; PByte 15; PByte 45; PModRM; PSib; PDisp],
    [TByte 243; TByte 15; TByte 45; TSlash 0 1]);
  (* 7776-7789; 511 *) (Inst "cvtss2si" [K64; KX] (Some (Op 0, 1)) None [PByte 243; PModRex true; PByte 15; PByte 45; PModRM; PSib; PDisp],
    [TByte 243; TRexW; TByte 15; TByte 45; TSlash 0 1]);
  (* 7792-7805; 511 *) (Inst "cvtss2si" [K64; KMem] (Some (Op 0, 1)) None [PByte 243; PModRex true; PByte 15; PByte 45; PModRM; PSib; PDisp],
    [TByte 243; TRexW; TByte 15; TByte 45; TSlash 0 1]);
  (* 7810-7823; 516 *) (Inst "cvttpd2dq" [KX; KX] (Some (Op 0, 1)) None [PByte 102; PModRex false; PByte 15; PByte 230; PModRM; PSib; PDisp],
    [TByte 102; TByte 15; TByte 230; TSlash 0 1]);
  (* 7826-7839; 516 *) (Inst "cvttpd2dq" [KX; KMem] (Some (Op 0, 1)) None [PByte 102; PModRex false; PByte 15; PByte 230; PModRM; PSib; PDisp],
    [TByte 102; TByte 15; TByte 230; TSlash 0 1]);
  (* 7844-7857; 521 *) (Inst "cvttps2dq" [KX; KX] (Some (Op 0, 1)) None [PByte 243; PModRex false; PByte 15; PByte 91; PModRM; PSib; PDisp],
    [TByte 243; TByte 15; TByte 91; TSlash 0 1]);
  (* 7860-7873; 521 *) (Inst "cvttps2dq" [KX; KMem] (Some (Op 0, 1)) None [PByte 243; PModRex false; PByte 15; PByte 91; PModRM; PSib; PDisp],
    [TByte 243; TByte 15; TByte 91; TSlash 0 1]);
  (* 7878-7891; 526 *) (Inst "cvttsd2si" [K32; KX] (Some (Op 0, 1)) None [PByte 242; PModRex false; PByte 15; PByte 44; PModRM; PSib; PDisp],
    [TByte 242; TByte 15; TByte 44; TSlash 0 1]);
  (* 7894-7907; 526 *) (Inst "cvttsd2si" [K32; KMem] (Some (Op 0, 1)) None [PByte 242; PModRex false; PByte 15; PByte 44; PModRM; PSib; PDisp],
    [TByte 242; TByte 15; TByte 44; TSlash 0 1]);
  (* 7910-7923; 527 *) (Inst "cvttsd2si" [K64; KX] (Some (Op 0, 1)) None [PByte 242; PModRex true; PByte 15; PByte 44; PModRM; PSib; PDisp],
    [TByte 242; TRexW; TByte 15; TByte 44; TSlash 0 1]);
  (* 7926-7939; 527 *) (Inst "cvttsd2si" [K64; KMem] (Some (Op 0, 1)) None [PByte 242; PModRex true; PByte 15; PByte 44; PModRM; PSib; PDisp],
    [TByte 242; TRexW; TByte 15; TByte 44; TSlash 0 1]);
  (* 7944-7957; 532 *) (Inst "cvttss2si" [K32; KX] (Some (Op 0, 1)) None [PByte 243; PModRex false; PByte 15; PByte 44; PModRM; PSib; PDisp],
    [TByte 243; TByte 15; TByte 44; TSlash 0 1]);
  (* 7960-7973; 532 *) (Inst "cvttss2si" [K32; KMem] (Some (Op 0, 1)) None [PByte 243; PModRex false; PByte 15; PByte 44; PModRM; PSib; PDisp],
    [TByte 243; TByte 15; TByte 44; TSlash 0 1]);
  (* 7976-7989; 533 *) (Inst "cvttss2si" [K64; KX] (Some (Op 0, 1)) None [PByte 243; PModRex true; PByte 15; PByte 44; PModRM; PSib; PDisp],
    [TByte 243; TRexW; TByte 15; TByte 44; TSlash 0 1]);
  (* 7992-8005; 533 *) (Inst "cvttss2si" [K64; KMem] (Some (Op 0, 1)) None [PByte 243; PModRex true; PByte 15; PByte 44; PModRM; PSib; PDisp],
    [TByte 243; TRexW; TByte 15; TByte 44; TSlash 0 1]);
  (* 8010-8017; 538 *) (Inst "cwtd" [] None None [PByte 102; PByte 153],
    [TByte 102; TByte 153]);
  (* 8022-8028; 543 *) (Inst "cwtl" [] None None [PByte 152],
    [TByte 152]);
  (* 8033-8044; 548 *) (Inst "decb" [K8] (Some (Digit 1, 0)) None [PModRex false; PByte 254; PModRM; PSib; PDisp],
    [TByte 254; TDigit 1 0]);
  (* 8047-8058; 548 *) (Inst "decb" [KMem] (Some (Digit 1, 0)) None [PModRex false; PByte 254; PModRM; PSib; PDisp],
    [TByte 254; TDigit 1 0]);
  (* 8063-8074; 553 *) (Inst "decl" [K32] (Some (Digit 1, 0)) None [PModRex false; PByte 255; PModRM; PSib; PDisp],
    [TByte 255; TDigit 1 0]);
  (* 8077-8088; 553 *) (Inst "decl" [KMem] (Some (Digit 1, 0)) None [PModRex false; PByte 255; PModRM; PSib; PDisp],
    [TByte 255; TDigit 1 0])].

Definition table3 : list (inst * list token) := [
  (* 8093-8104; 558 *) (Inst "decq" [K64] (Some (Digit 1, 0)) None [PModRex true; PByte 255; PModRM; PSib; PDisp],
    [TRexW; TByte 255; TDigit 1 0]);
  (* 8107-8118; 558 *) (Inst "decq" [KMem] (Some (Digit 1, 0)) None [PModRex true; PByte 255; PModRM; PSib; PDisp],
    [TRexW; TByte 255; TDigit 1 0]);
  (* 8123-8135; 563 *) (Inst "decw" [K16] (Some (Digit 1, 0)) None [PByte 102; PModRex false; PByte 255; PModRM; PSib; PDisp],
    [TByte 102; TByte 255; TDigit 1 0]);
  (* 8138-8150; 563 *) (Inst "decw" [KMem] (Some (Digit 1, 0)) None [PByte 102; PModRex false; PByte 255; PModRM; PSib; PDisp],
    [TByte 102; TByte 255; TDigit 1 0]);
  (* 8155-8166; 568 *) (Inst "divb" [K8] (Some (Digit 6, 0)) None [PModRex false; PByte 246; PModRM; PSib; PDisp],
    [TByte 246; TDigit 6 0]);
  (* 8169-8180; 568 *) (Inst "divb" [KMem] (Some (Digit 6, 0)) None [PModRex false; PByte 246; PModRM; PSib; PDisp],
    [TByte 246; TDigit 6 0]);
  (* 8185-8196; 573 *) (Inst "divl" [K32] (Some (Digit 6, 0)) None [PModRex false; PByte 247; PModRM; PSib; PDisp],
    [TByte 247; TDigit 6 0]);
  (* 8199-8210; 573 *) (Inst "divl" [KMem] (Some (Digit 6, 0)) None [PModRex false; PByte 247; PModRM; PSib; PDisp],
    [TByte 247; TDigit 6 0]);
  (* 8215-8228; 578 *) (Inst "divpd" [KX; KX] (Some (Op 0, 1)) None [PByte 102; PModRex false; PByte 15; PByte 94; PModRM; PSib; PDisp],
    [TByte 102; TByte 15; TByte 94; TSlash 0 1]);
  (* 8231-8244; 578 *) (Inst "divpd" [KX; KMem] (Some (Op 0, 1)) None [PByte 102; PModRex false; PByte 15; PByte 94; PModRM; PSib; PDisp],
    [TByte 102; TByte 15; TByte 94; TSlash 0 1]);
  (* 8249-8261; 583 *) (Inst "divps" [KX; KX] (Some (Op 0, 1)) None [PModRex false; PByte 15; PByte 94; PModRM; PSib; PDisp],
    [TByte 15; TByte 94; TSlash 0 1]);
  (* 8264-8276; 583 *) (Inst "divps" [KX; KMem] (Some (Op 0, 1)) None [PModRex false; PByte 15; PByte 94; PModRM; PSib; PDisp],
    [TByte 15; TByte 94; TSlash 0 1]);
  (* 8281-8292; 588 *) (Inst "divq" [K64] (Some (Digit 6, 0)) None [PModRex true; PByte 247; PModRM; PSib; PDisp],
    [TRexW; TByte 247; TDigit 6 0]);
  (* 8295-8306; 588 *) (Inst "divq" [KMem] (Some (Digit 6, 0)) None [PModRex true; PByte 247; PModRM; PSib; PDisp],
    [TRexW; TByte 247; TDigit 6 0]);
  (* 8311-8324; 593 *) (Inst "divsd" [KX; KX] (Some (Op 0, 1)) None [PByte 242; PModRex false; PByte 15; PByte 94; PModRM; PSib; PDisp],
    [TByte 242; TByte 15; TByte 94; TSlash 0 1]);
  (* 8327-8340; 593 *) (Inst "divsd" [KX; KMem] (Some (Op 0, 1)) None [PByte 242; PModRex false; PByte 15; PByte 94; PModRM; PSib; PDisp],
    [TByte 242; TByte 15; TByte 94; TSlash 0 1]);
  (* 8345-8358; 598 *) (Inst "divss" [KX; KX] (Some (Op 0, 1)) None [PByte 243; PModRex false; PByte 15; PByte 94; PModRM; PSib; PDisp],
    [TByte 243; TByte 15; TByte 94; TSlash 0 1]);
  (* 8361-8374; 598 *) (Inst "divss" [KX; KMem] (Some (Op 0, 1)) None [PByte 243; PModRex false; PByte 15; PByte 94; PModRM; PSib; PDisp],
    [TByte 243; TByte 15; TByte 94; TSlash 0 1]);
  (* 8379-8391; 603 *) (Inst "divw" [K16] (Some (Digit 6, 0)) None [PByte 102; PModRex false; PByte 247; PModRM; PSib; PDisp],
    [TByte 102; TByte 247; TDigit 6 0]);
  (* 8394-8406; 603 *) (Inst "divw" [KMem] (Some (Digit 6, 0)) None [PByte 102; PModRex false; PByte 247; PModRM; PSib; PDisp],
    [TByte 102; TByte 247; TDigit 6 0]);
  (* 8411-8426; 608 *) (Inst "dppd" [KX; KX; KI8] (Some (Op 0, 1)) None [PByte 102; PModRex false; PByte 15; PByte 58; PByte 65; PModRM; PSib; PDisp; PImm 2],
    [TByte 102; TByte 15; TByte 58; TByte 65; TSlash 0 1; TImm 1 2]);
  (* 8429-8444; 608 *) (Inst "dppd" [KX; KMem; KI8] (Some (Op 0, 1)) None [PByte 102; PModRex false; PByte 15; PByte 58; PByte 65; PModRM; PSib; PDisp; PImm 2],
    [TByte 102; TByte 15; TByte 58; TByte 65; TSlash 0 1; TImm 1 2]);
  (* 8449-8464; 613 *) (Inst "dpps" [KX; KX; KI8] (Some (Op 0, 1)) None [PByte 102; PModRex false; PByte 15; PByte 58; PByte 64; PModRM; PSib; PDisp; PImm 2],
    [TByte 102; TByte 15; TByte 58; TByte 64; TSlash 0 1; TImm 1 2]);
  (* 8467-8482; 613 *) (Inst "dpps" [KX; KMem; KI8] (Some (Op 0, 1)) None [PByte 102; PModRex false; PByte 15; PByte 58; PByte 64; PModRM; PSib; PDisp; PImm 2],
    [TByte 102; TByte 15; TByte 58; TByte 64; TSlash 0 1; TImm 1 2]);
  (* 8487-8494; 618 *) (Inst "emms" [] None None [PByte 15; PByte 119],
    [TByte 15; TByte 119]);
  (* 8499-8514; 623 *) (Inst "extractps" [K64; KX; KI8] (Some (Op 1, 0)) None [PByte 102; PModRex false; PByte 15; PByte 58; PByte 23; PModRM; PSib; PDisp; PImm 2],
    [TByte 102; TByte 15; TByte 58; TByte 23; TSlash 1 0; TImm 1 2]);
  (* 8517-8532; 623 *) (Inst "extractps" [KMem; KX; KI8] (Some (Op 1, 0)) None [PByte 102; PModRex false; PByte 15; PByte 58; PByte 23; PModRM; PSib; PDisp; PImm 2],
    [TByte 102; TByte 15; TByte 58; TByte 23; TSlash 1 0; TImm 1 2]);
  (* 8537-8543; 628 *) (Inst "hlt" [] None None [PByte 244],
    [TByte 244]);
  (* 8548-8559; 633 *) (Inst "idivb" [K8] (Some (Digit 7, 0)) None [PModRex false; PByte 246; PModRM; PSib; PDisp],
    [TByte 246; TDigit 7 0]);
  (* 8562-8573; 633 *) (Inst "idivb" [KMem] (Some (Digit 7, 0)) None [PModRex false; PByte 246; PModRM; PSib; PDisp],
    [TByte 246; TDigit 7 0]);
  (* 8578-8589; 638 *) (Inst "idivl" [K32] (Some (Digit 7, 0)) None [PModRex false; PByte 247; PModRM; PSib; PDisp],
    [TByte 247; TDigit 7 0]);
  (* 8592-8603; 638 *) (Inst "idivl" [KMem] (Some (Digit 7, 0)) None [PModRex false; PByte 247; PModRM; PSib; PDisp],
    [TByte 247; TDigit 7 0]);
  (* 8608-8619; 643 *) (Inst "idivq" [K64] (Some (Digit 7, 0)) None [PModRex true; PByte 247; PModRM; PSib; PDisp],
    [TRexW; TByte 247; TDigit 7 0]);
  (* 8622-8633; 643 *) (Inst "idivq" [KMem] (Some (Digit 7, 0)) None [PModRex true; PByte 247; PModRM; PSib; PDisp],
    [TRexW; TByte 247; TDigit 7 0]);
  (* 8638-8650; 648 *) (Inst "idivw" [K16] (Some (Digit 7, 0)) None [PByte 102; PModRex false; PByte 247; PModRM; PSib; PDisp],
    [TByte 102; TByte 247; TDigit 7 0]);
  (* 8653-8665; 648 *) (Inst "idivw" [KMem] (Some (Digit 7, 0)) None [PByte 102; PModRex false; PByte 247; PModRM; PSib; PDisp],
    [TByte 102; TByte 247; TDigit 7 0]);
  (* 8670-8681; 653 *) (Inst "imulb" [K8] (Some (Digit 5, 0)) None [PModRex false; PByte 246; PModRM; PSib; PDisp],
    [TByte 246; TDigit 5 0]);
  (* 8684-8695; 653 *) (Inst "imulb" [KMem] (Some (Digit 5, 0)) None [PModRex false; PByte 246; PModRM; PSib; PDisp],
    [TByte 246; TDigit 5 0]);
  (* 8700-8712; 658 *) (Inst "imull" [K32; K32; KI8] (Some (Op 0, 1)) None [PModRex false; PByte 107; PModRM; PSib; PDisp; PImm 2],
    [TByte 107; TSlash 0 1; TImm 1 2]);
  (* 8715-8727; 658 *) (Inst "imull" [K32; KMem; KI8] (Some (Op 0, 1)) None [PModRex false; PByte 107; PModRM; PSib; PDisp; PImm 2],
    [TByte 107; TSlash 0 1; TImm 1 2]);
  (* 8730-8742; 659 *) (Inst "imull" [K32; K32; KI32] (Some (Op 0, 1)) None [PModRex false; PByte 105; PModRM; PSib; PDisp; PImm 2],
    [TByte 105; TSlash 0 1; TImm 4 2]);
  (* 8745-8757; 659 *) (Inst "imull" [K32; KMem; KI32] (Some (Op 0, 1)) None [PModRex false; PByte 105; PModRM; PSib; PDisp; PImm 2],
    [TByte 105; TSlash 0 1; TImm 4 2]);
  (* 8762-8773; 664 *) (Inst "imull1" [K32] (Some (Digit 5, 0)) None [PModRex false; PByte 247; PModRM; PSib; PDisp],
    [TByte 247; TDigit 5 0]);
  (* 8776-8787; 664 *) (Inst "imull1" [KMem] (Some (Digit 5, 0)) None [PModRex false; PByte 247; PModRM; PSib; PDisp],
    [TByte 247; TDigit 5 0]);
  (* 8792-8804; 669 *) (Inst "imull2" [K32; K32] (Some (Op 0, 1)) None [PModRex false; PByte 15; PByte 175; PModRM; PSib; PDisp],
    [TByte 15; TByte 175; TSlash 0 1]);
  (* 8807-8819; 669 *) (Inst "imull2" [K32; KMem] (Some (Op 0, 1)) None [PModRex false; PByte 15; PByte 175; PModRM; PSib; PDisp],
    [TByte 15; TByte 175; TSlash 0 1]);
  (* 8824-8836; 674 *) (Inst "imulq" [K64; K64; KI8] (Some (Op 0, 1)) None [PModRex true; PByte 107; PModRM; PSib; PDisp; PImm 2],
    [TRexW; TByte 107; TSlash 0 1; TImm 1 2]);
  (* 8839-8851; 674 *) (Inst "imulq" [K64; KMem; KI8] (Some (Op 0, 1)) None [PModRex true; PByte 107; PModRM; PSib; PDisp; PImm 2],
    [TRexW; TByte 107; TSlash 0 1; TImm 1 2]);
  (* 8854-8866; 675 *) (Inst "imulq" [K64; K64; KI32] (Some (Op 0, 1)) None [PModRex true; PByte 105; PModRM; PSib; PDisp; PImm 2],
    [TRexW; TByte 105; TSlash 0 1; TImm 4 2]);
  (* 8869-8881; 675 *) (Inst "imulq" [K64; KMem; KI32] (Some (Op 0, 1)) None [PModRex true; PByte 105; PModRM; PSib; PDisp; PImm 2],
    [TRexW; TByte 105; TSlash 0 1; TImm 4 2]);
  (* 8886-8897; 680 *) (Inst "imulq1" [K64] (Some (Digit 5, 0)) None [PModRex true; PByte 247; PModRM; PSib; PDisp],
    [TRexW; TByte 247; TDigit 5 0]);
  (* 8900-8911; 680 *) (Inst "imulq1" [KMem] (Some (Digit 5, 0)) None [PModRex true; PByte 247; PModRM; PSib; PDisp],
    [TRexW; TByte 247; TDigit 5 0]);
  (* 8916-8928; 685 *) (Inst "imulq2" [K64; K64] (Some (Op 0, 1)) None [PModRex true; PByte 15; PByte 175; PModRM; PSib; PDisp],
    [TRexW; TByte 15; TByte 175; TSlash 0 1]);
  (* 8931-8943; 685 *) (Inst "imulq2" [K64; KMem] (Some (Op 0, 1)) None [PModRex true; PByte 15; PByte 175; PModRM; PSib; PDisp],
    [TRexW; TByte 15; TByte 175; TSlash 0 1]);
  (* 8948-8961; 690 *) (Inst "imulw" [K16; K16; KI8] (Some (Op 0, 1)) None [PByte 102; PModRex false; PByte 107; PModRM; PSib; PDisp; PImm 2],
    [TByte 102; TByte 107; TSlash 0 1; TImm 1 2]);
  (* 8964-8977; 690 *) (Inst "imulw" [K16; KMem; KI8] (Some (Op 0, 1)) None [PByte 102; PModRex false; PByte 107; PModRM; PSib; PDisp; PImm 2],
    [TByte 102; TByte 107; TSlash 0 1; TImm 1 2]);
  (* 8980-8993; 691 *) (Inst "imulw" [K16; K16; KI16] (Some (Op 0, 1)) None [PByte 102; PModRex false; PByte 105; PModRM; PSib; PDisp; PImm 2],
    [TByte 102; TByte 105; TSlash 0 1; TImm 2 2]);
  (* 8996-9009; 691 *) (Inst "imulw" [K16; KMem; KI16] (Some (Op 0, 1)) None [PByte 102; PModRex false; PByte 105; PModRM; PSib; PDisp; PImm 2],
    [TByte 102; TByte 105; TSlash 0 1; TImm 2 2]);
  (* 9014-9026; 696 *) (Inst "imulw1" [K16] (Some (Digit 5, 0)) None [PByte 102; PModRex false; PByte 247; PModRM; PSib; PDisp],
    [TByte 102; TByte 247; TDigit 5 0]);
  (* 9029-9041; 696 *) (Inst "imulw1" [KMem] (Some (Digit 5, 0)) None [PByte 102; PModRex false; PByte 247; PModRM; PSib; PDisp],
    [TByte 102; TByte 247; TDigit 5 0]);
  (* 9046-9059; 701 *) (Inst "imulw2" [K16; K16] (Some (Op 0, 1)) None [PByte 102; PModRex false; PByte 15; PByte 175; PModRM; PSib; PDisp],
    [TByte 102; TByte 15; TByte 175; TSlash 0 1]);
  (* 9062-9075; 701 *) (Inst "imulw2" [K16; KMem] (Some (Op 0, 1)) None [PByte 102; PModRex false; PByte 15; PByte 175; PModRM; PSib; PDisp],
    [TByte 102; TByte 15; TByte 175; TSlash 0 1]);
  (* 9080-9087; 706 *) (Inst "inb" [KFixed FAl; KI8] None None [PByte 228; PImm 1],
    [TByte 228; TImm 1 1]);
  (* 9090-9096; 707 *) (Inst "inb" [KFixed FAl; KFixed FDx] None None [PByte 236],
    [TByte 236]);
  (* 9101-9112; 712 *) (Inst "incb" [K8] (Some (Digit 0, 0)) None [PModRex false; PByte 254; PModRM; PSib; PDisp],
    [TByte 254; TDigit 0 0]);
  (* 9115-9126; 712 *) (Inst "incb" [KMem] (Some (Digit 0, 0)) None [PModRex false; PByte 254; PModRM; PSib; PDisp],
    [TByte 254; TDigit 0 0]);
  (* 9131-9142; 717 *) (Inst "incl" [K32] (Some (Digit 0, 0)) None [PModRex false; PByte 255; PModRM; PSib; PDisp],
    [TByte 255; TDigit 0 0]);
  (* 9145-9156; 717 *) (Inst "incl" [KMem] (Some (Digit 0, 0)) None [PModRex false; PByte 255; PModRM; PSib; PDisp],
    [TByte 255; TDigit 0 0]);
  (* 9161-9172; 722 *) (Inst "incq" [K64] (Some (Digit 0, 0)) None [PModRex true; PByte 255; PModRM; PSib; PDisp],
    [TRexW; TByte 255; TDigit 0 0]);
  (* 9175-9186; 722 *) (Inst "incq" [KMem] (Some (Digit 0, 0)) None [PModRex true; PByte 255; PModRM; PSib; PDisp],
    [TRexW; TByte 255; TDigit 0 0]);
  (* 9191-9203; 727 *) (Inst "incw" [K16] (Some (Digit 0, 0)) None [PByte 102; PModRex false; PByte 255; PModRM; PSib; PDisp],
    [TByte 102; TByte 255; TDigit 0 0]);
  (* 9206-9218; 727 *) (Inst "incw" [KMem] (Some (Digit 0, 0)) None [PByte 102; PModRex false; PByte 255; PModRM; PSib; PDisp],
    [TByte 102; TByte 255; TDigit 0 0]);
  (* 9223-9230; 732 *) (Inst "inl" [KFixed FEax; KI8] None None [PByte 229; PImm 1],
    [TByte 229; TImm 1 1]);
  (* 9233-9239; 733 *) (Inst "inl" [KFixed FEax; KFixed FDx] None None [PByte 237],
    [TByte 237]);
  (* 9244-9259; 738 *) (Inst "insertps" [KX; KX; KI8] (Some (Op 0, 1)) None [PByte 102; PModRex false; PByte 15; PByte 58; PByte 33; PModRM; PSib; PDisp; PImm 2],
    [TByte 102; TByte 15; TByte 58; TByte 33; TSlash 0 1; TImm 1 2]);
  (* 9262-9277; 738 *) (Inst "insertps" [KX; KMem; KI8] (Some (Op 0, 1)) None [PByte 102; PModRex false; PByte 15; PByte 58; PByte 33; PModRM; PSib; PDisp; PImm 2],
    [TByte 102; TByte 15; TByte 58; TByte 33; TSlash 0 1; TImm 1 2]);
  (* 9282-9289; 743 *) (Inst "int" [KI8] None None [PByte 205; PImm 0],
    [TByte 205; TImm 1 0]);
  (* 9292-9298; 744 *) (Inst "int" [KFixed F3] None None [PByte 204],
    [TByte 204]);
  (* 9303-9310; 749 *) (Inst "invd" [] None None [PByte 15; PByte 8],
    [TByte 15; TByte 8]);
  (* 9315-9327; 754 *) (Inst "invlpg" [KMem] (Some (Digit 7, 0)) None [PModRex false; PByte 15; PByte 1; PModRM; PSib; PDisp],
    [TByte 15; TByte 1; TDigit 7 0]);
  (* 9332-9340; 759 *) (Inst "inw" [KFixed FAx; KI8] None None [PByte 102; PByte 229; PImm 1],
    [TByte 102; TByte 229; TImm 1 1]);
  (* 9343-9350; 760 *) (Inst "inw" [KFixed FAx; KFixed FDx] None None [PByte 102; PByte 237],
    [TByte 102; TByte 237]);
  (* 9355-9361; 765 *) (Inst "iretl" [] None None [PByte 207],
    [TByte 207]);
  (* 9366-9373; 770 *) (Inst "iretq" [] None None [PRex true; PByte 207],
    [TRexW; TByte 207]);
  (* 9378-9385; 775 *) (Inst "iretw" [] None None [PByte 102; PByte 207],
    [TByte 102; TByte 207]);
  (* 9390-9397; 780 *) (Inst "ja" [KI8] None None [PByte 119; PImm 0],
    [TByte 119; TImm 1 0]);
  (* 9400-9408; 781 *) (Inst "ja" [KI32] None None [PByte 15; PByte 135; PImm 0],
    [TByte 15; TByte 135; TImm 4 0]);
  (* 9413-9420; 786 *) (Inst "jae" [KI8] None None [PByte 115; PImm 0],
    [TByte 115; TImm 1 0]);
  (* 9423-9431; 787 *) (Inst "jae" [KI32] None None [PByte 15; PByte 131; PImm 0],
    [TByte 15; TByte 131; TImm 4 0]);
  (* 9436-9443; 792 *) (Inst "jb" [KI8] None None [PByte 114; PImm 0],
    [TByte 114; TImm 1 0]);
  (* 9446-9454; 793 *) (Inst "jb" [KI32] None None [PByte 15; PByte 130; PImm 0],
    [TByte 15; TByte 130; TImm 4 0]);
  (* 9459-9466; 798 *) (Inst "jbe" [KI8] None None [PByte 118; PImm 0],
    [TByte 118; TImm 1 0]);
  (* 9469-9477; 799 *) (Inst "jbe" [KI32] None None [PByte 15; PByte 134; PImm 0],
    [TByte 15; TByte 134; TImm 4 0]);
  (* 9482-9489; 804 *) (Inst "jc" [KI8] None None [PByte 114; PImm 0],
    [TByte 114; TImm 1 0]);
  (* 9492-9500; 805 *) (Inst "jc" [KI32] None None [PByte 15; PByte 130; PImm 0],
    [TByte 15; TByte 130; TImm 4 0]);
  (* 9505-9512; 810 *) (Inst "je" [KI8] None None [PByte 116; PImm 0],
    [TByte 116; TImm 1 0]);
  (* 9515-9523; 811 *) (Inst "je" [KI32] None None [PByte 15; PByte 132; PImm 0],
    [TByte 15; TByte 132; TImm 4 0]);
  (* 9528-9535; 816 *) (Inst "jecxz" [KI8] None None [PByte 227; PImm 0],
    [TByte 227; TImm 1 0]);
  (* 9540-9547; 821 *) (Inst "jg" [KI8] None None [PByte 127; PImm 0],
    [TByte 127; TImm 1 0]);
  (* 9550-9558; 822 *) (Inst "jg" [KI32] None None [PByte 15; PByte 143; PImm 0],
    [TByte 15; TByte 143; TImm 4 0])].

Definition table4 : list (inst * list token) := [
  (* 9563-9570; 827 *) (Inst "jge" [KI8] None None [PByte 125; PImm 0],
    [TByte 125; TImm 1 0]);
  (* 9573-9581; 828 *) (Inst "jge" [KI32] None None [PByte 15; PByte 141; PImm 0],
    [TByte 15; TByte 141; TImm 4 0]);
  (* 9586-9593; 833 *) (Inst "jl" [KI8] None None [PByte 124; PImm 0],
    [TByte 124; TImm 1 0]);
  (* 9596-9604; 834 *) (Inst "jl" [KI32] None None [PByte 15; PByte 140; PImm 0],
    [TByte 15; TByte 140; TImm 4 0]);
  (* 9609-9616; 839 *) (Inst "jle" [KI8] None None [PByte 126; PImm 0],
    [TByte 126; TImm 1 0]);
  (* 9619-9627; 840 *) (Inst "jle" [KI32] None None [PByte 15; PByte 142; PImm 0],
    [TByte 15; TByte 142; TImm 4 0]);
  (* 9632-9639; 845 *) (Inst "jmpq" [KI8] None None [PByte 235; PImm 0],
    [TByte 235; TImm 1 0]);
  (* 9642-9649; 846 *) (Inst "jmpq" [KI32] None None [PByte 233; PImm 0],
    [TByte 233; TImm 4 0]);
  (* 9652-9663; 847 *) (Inst "jmpq" [K64] (Some (Digit 4, 0)) None [PModRex false; PByte 255; PModRM; PSib; PDisp],
    [TByte 255; TDigit 4 0]);
  (* 9666-9677; 847 *) (Inst "jmpq" [KMem] (Some (Digit 4, 0)) None [PModRex false; PByte 255; PModRM; PSib; PDisp],
    [TByte 255; TDigit 4 0]);
  (* 9682-9689; 852 *) (Inst "jna" [KI8] None None [PByte 118; PImm 0],
    [TByte 118; TImm 1 0]);
  (* 9692-9700; 853 *) (Inst "jna" [KI32] None None [PByte 15; PByte 134; PImm 0],
    [TByte 15; TByte 134; TImm 4 0]);
  (* 9705-9712; 858 *) (Inst "jnae" [KI8] None None [PByte 114; PImm 0],
    [TByte 114; TImm 1 0]);
  (* 9715-9723; 859 *) (Inst "jnae" [KI32] None None [PByte 15; PByte 130; PImm 0],
    [TByte 15; TByte 130; TImm 4 0]);
  (* 9728-9735; 864 *) (Inst "jnb" [KI8] None None [PByte 115; PImm 0],
    [TByte 115; TImm 1 0]);
  (* 9738-9746; 865 *) (Inst "jnb" [KI32] None None [PByte 15; PByte 131; PImm 0],
    [TByte 15; TByte 131; TImm 4 0]);
  (* 9751-9758; 870 *) (Inst "jnbe" [KI8] None None [PByte 119; PImm 0],
    [TByte 119; TImm 1 0]);
  (* 9761-9769; 871 *) (Inst "jnbe" [KI32] None None [PByte 15; PByte 135; PImm 0],
    [TByte 15; TByte 135; TImm 4 0]);
  (* 9774-9781; 876 *) (Inst "jnc" [KI8] None None [PByte 115; PImm 0],
    [TByte 115; TImm 1 0]);
  (* 9784-9792; 877 *) (Inst "jnc" [KI32] None None [PByte 15; PByte 131; PImm 0],
    [TByte 15; TByte 131; TImm 4 0]);
  (* 9797-9804; 882 *) (Inst "jne" [KI8] None None [PByte 117; PImm 0],
    [TByte 117; TImm 1 0]);
  (* 9807-9815; 883 *) (Inst "jne" [KI32] None None [PByte 15; PByte 133; PImm 0],
    [TByte 15; TByte 133; TImm 4 0]);
  (* 9820-9827; 888 *) (Inst "jng" [KI8] None None [PByte 126; PImm 0],
    [TByte 126; TImm 1 0]);
  (* 9830-9838; 889 *) (Inst "jng" [KI32] None None [PByte 15; PByte 142; PImm 0],
    [TByte 15; TByte 142; TImm 4 0]);
  (* 9843-9850; 894 *) (Inst "jnge" [KI8] None None [PByte 124; PImm 0],
    [TByte 124; TImm 1 0]);
  (* 9853-9861; 895 *) (Inst "jnge" [KI32] None None [PByte 15; PByte 140; PImm 0],
    [TByte 15; TByte 140; TImm 4 0]);
  (* 9866-9873; 900 *) (Inst "jnl" [KI8] None None [PByte 125; PImm 0],
    [TByte 125; TImm 1 0]);
  (* 9876-9884; 901 *) (Inst "jnl" [KI32] None None [PByte 15; PByte 141; PImm 0],
    [TByte 15; TByte 141; TImm 4 0]);
  (* 9889-9896; 906 *) (Inst "jnle" [KI8] None None [PByte 127; PImm 0],
    [TByte 127; TImm 1 0]);
  (* 9899-9907; 907 *) (Inst "jnle" [KI32] None None [PByte 15; PByte 143; PImm 0],
    [TByte 15; TByte 143; TImm 4 0]);
  (* 9912-9919; 912 *) (Inst "jno" [KI8] None None [PByte 113; PImm 0],
    [TByte 113; TImm 1 0]);
  (* 9922-9930; 913 *) (Inst "jno" [KI32] None None [PByte 15; PByte 129; PImm 0],
    [TByte 15; TByte 129; TImm 4 0]);
  (* 9935-9942; 918 *) (Inst "jnp" [KI8] None None [PByte 123; PImm 0],
    [TByte 123; TImm 1 0]);
  (* 9945-9953; 919 *) (Inst "jnp" [KI32] None None [PByte 15; PByte 139; PImm 0],
    [TByte 15; TByte 139; TImm 4 0]);
  (* 9958-9965; 924 *) (Inst "jns" [KI8] None None [PByte 121; PImm 0],
    [TByte 121; TImm 1 0]);
  (* 9968-9976; 925 *) (Inst "jns" [KI32] None None [PByte 15; PByte 137; PImm 0],
    [TByte 15; TByte 137; TImm 4 0]);
  (* 9981-9988; 930 *) (Inst "jnz" [KI8] None None [PByte 117; PImm 0],
    [TByte 117; TImm 1 0]);
  (* 9991-9999; 931 *) (Inst "jnz" [KI32] None None [PByte 15; PByte 133; PImm 0],
    [TByte 15; TByte 133; TImm 4 0]);
  (* 10004-10011; 936 *) (Inst "jo" [KI8] None None [PByte 112; PImm 0],
    [TByte 112; TImm 1 0]);
  (* 10014-10022; 937 *) (Inst "jo" [KI32] None None [PByte 15; PByte 128; PImm 0],
    [TByte 15; TByte 128; TImm 4 0]);
  (* 10027-10034; 942 *) (Inst "jp" [KI8] None None [PByte 122; PImm 0],
    [TByte 122; TImm 1 0]);
  (* 10037-10045; 943 *) (Inst "jp" [KI32] None None [PByte 15; PByte 138; PImm 0],
    [TByte 15; TByte 138; TImm 4 0]);
  (* 10050-10057; 948 *) (Inst "jpe" [KI8] None None [PByte 122; PImm 0],
    [TByte 122; TImm 1 0]);
  (* 10060-10068; 949 *) (Inst "jpe" [KI32] None None [PByte 15; PByte 138; PImm 0],
    [TByte 15; TByte 138; TImm 4 0]);
  (* 10073-10080; 954 *) (Inst "jpo" [KI8] None None [PByte 123; PImm 0],
    [TByte 123; TImm 1 0]);
  (* 10083-10091; 955 *) (Inst "jpo" [KI32] None None [PByte 15; PByte 139; PImm 0],
    [TByte 15; TByte 139; TImm 4 0]);
  (* 10096-10103; 960 *) (Inst "jrcxz" [KI8] None None [PByte 227; PImm 0],
    [TByte 227; TImm 1 0]);
  (* 10108-10115; 965 *) (Inst "js" [KI8] None None [PByte 120; PImm 0],
    [TByte 120; TImm 1 0]);
  (* 10118-10126; 966 *) (Inst "js" [KI32] None None [PByte 15; PByte 136; PImm 0],
    [TByte 15; TByte 136; TImm 4 0]);
  (* 10131-10138; 971 *) (Inst "jz" [KI8] None None [PByte 116; PImm 0],
    [TByte 116; TImm 1 0]);
  (* 10141-10149; 972 *) (Inst "jz" [KI32] None None [PByte 15; PByte 132; PImm 0],
    [TByte 15; TByte 132; TImm 4 0]);
  (* 10154-10166; 977 *) (Inst "ldmxcsr" [KMem] (Some (Digit 2, 0)) None [PModRex false; PByte 15; PByte 174; PModRM; PSib; PDisp],
    [TByte 15; TByte 174; TDigit 2 0]);
  (* 10171-10182; 982 *) (Inst "leal" [K32; KMem] (Some (Op 0, 1)) None [PModRex false; PByte 141; PModRM; PSib; PDisp],
    [TByte 141; TSlash 0 1]);
  (* 10187-10198; 987 *) (Inst "leaq" [K64; KMem] (Some (Op 0, 1)) None [PModRex true; PByte 141; PModRM; PSib; PDisp],
    [TRexW; TByte 141; TSlash 0 1]);
  (* 10203-10209; 992 *) (Inst "leaveq" [] None None [PByte 201],
    [TByte 201]);
  (* 10214-10221; 997 *) (Inst "leavew" [] None None [PByte 102; PByte 201],
    [TByte 102; TByte 201]);
  (* 10226-10238; 1002 *) (Inst "leaw" [K16; KMem] (Some (Op 0, 1)) None [PByte 102; PModRex false; PByte 141; PModRM; PSib; PDisp],
    [TByte 102; TByte 141; TSlash 0 1]);
  (* 10243-10251; 1007 *) (Inst "lfence" [] None None [PByte 15; PByte 174; PByte 232],
    [TByte 15; TByte 174; TByte 232]);
  (* 10256-10268; 1012 *) (Inst "lmsw" [K16] (Some (Digit 6, 0)) None [PModRex false; PByte 15; PByte 1; PModRM; PSib; PDisp],
    [TByte 15; TByte 1; TDigit 6 0]);
  (* 10271-10283; 1012 *) (Inst "lmsw" [KMem] (Some (Digit 6, 0)) None [PModRex false; PByte 15; PByte 1; PModRM; PSib; PDisp],
    [TByte 15; TByte 1; TDigit 6 0]);
  (* 10288-10294; 1017 *) (Inst "lock" [] None None [PByte 240],
    [TByte 240]);
  (* 10299-10312; 1022 *) (Inst "maskmovdqu" [KX; KX] (Some (Op 0, 1)) None [PByte 102; PModRex false; PByte 15; PByte 247; PModRM; PSib; PDisp],
    [TByte 102; TByte 15; TByte 247; TSlash 0 1]);
  (* 10317-10330; 1027 *) (Inst "maxpd" [KX; KX] (Some (Op 0, 1)) None [PByte 102; PModRex false; PByte 15; PByte 95; PModRM; PSib; PDisp],
    [TByte 102; TByte 15; TByte 95; TSlash 0 1]);
  (* 10333-10346; 1027 *) (Inst "maxpd" [KX; KMem] (Some (Op 0, 1)) None [PByte 102; PModRex false; PByte 15; PByte 95; PModRM; PSib; PDisp],
    [TByte 102; TByte 15; TByte 95; TSlash 0 1]);
  (* 10351-10363; 1032 *) (Inst "maxps" [KX; KX] (Some (Op 0, 1)) None [PModRex false; PByte 15; PByte 95; PModRM; PSib; PDisp],
    [TByte 15; TByte 95; TSlash 0 1]);
  (* 10366-10378; 1032 *) (Inst "maxps" [KX; KMem] (Some (Op 0, 1)) None [PModRex false; PByte 15; PByte 95; PModRM; PSib; PDisp],
    [TByte 15; TByte 95; TSlash 0 1]);
  (* 10383-10396; 1037 *) (Inst "maxsd" [KX; KX] (Some (Op 0, 1)) None [PByte 242; PModRex false; PByte 15; PByte 95; PModRM; PSib; PDisp],
    [TByte 242; TByte 15; TByte 95; TSlash 0 1]);
  (* 10399-10412; 1037 *) (Inst "maxsd" [KX; KMem] (Some (Op 0, 1)) None [PByte 242; PModRex false; PByte 15; PByte 95; PModRM; PSib; PDisp],
    [TByte 242; TByte 15; TByte 95; TSlash 0 1]);
  (* 10417-10430; 1042 *) (Inst "maxss" [KX; KX] (Some (Op 0, 1)) None [PByte 243; PModRex false; PByte 15; PByte 95; PModRM; PSib; PDisp],
    [TByte 243; TByte 15; TByte 95; TSlash 0 1]);
  (* 10433-10446; 1042 *) (Inst "maxss" [KX; KMem] (Some (Op 0, 1)) None [PByte 243; PModRex false; PByte 15; PByte 95; PModRM; PSib; PDisp],
    [TByte 243; TByte 15; TByte 95; TSlash 0 1]);
  (* 10451-10459; 1047 *) (Inst "mfence" [] None None [PByte 15; PByte 174; PByte 240],
    [TByte 15; TByte 174; TByte 240]);
  (* 10464-10477; 1052 *) (Inst "minpd" [KX; KX] (Some (Op 0, 1)) None [PByte 102; PModRex false; PByte 15; PByte 93; PModRM; PSib; PDisp],
    [TByte 102; TByte 15; TByte 93; TSlash 0 1]);
  (* 10480-10493; 1052 *) (Inst "minpd" [KX; KMem] (Some (Op 0, 1)) None [PByte 102; PModRex false; PByte 15; PByte 93; PModRM; PSib; PDisp],
    [TByte 102; TByte 15; TByte 93; TSlash 0 1]);
  (* 10498-10510; 1057 *) (Inst "minps" [KX; KX] (Some (Op 0, 1)) None [PModRex false; PByte 15; PByte 93; PModRM; PSib; PDisp],
    [TByte 15; TByte 93; TSlash 0 1]);
  (* 10513-10525; 1057 *) (Inst "minps" [KX; KMem] (Some (Op 0, 1)) None [PModRex false; PByte 15; PByte 93; PModRM; PSib; PDisp],
    [TByte 15; TByte 93; TSlash 0 1]);
  (* 10530-10543; 1062 *) (Inst "minsd" [KX; KX] (Some (Op 0, 1)) None [PByte 242; PModRex false; PByte 15; PByte 93; PModRM; PSib; PDisp],
    [TByte 242; TByte 15; TByte 93; TSlash 0 1]);
  (* 10546-10559; 1062 *) (Inst "minsd" [KX; KMem] (Some (Op 0, 1)) None [PByte 242; PModRex false; PByte 15; PByte 93; PModRM; PSib; PDisp],
    [TByte 242; TByte 15; TByte 93; TSlash 0 1]);
  (* 10564-10577; 1067 *) (Inst "minss" [KX; KX] (Some (Op 0, 1)) None [PByte 243; PModRex false; PByte 15; PByte 93; PModRM; PSib; PDisp],
    [TByte 243; TByte 15; TByte 93; TSlash 0 1]);
  (* 10580-10593; 1067 *) (Inst "minss" [KX; KMem] (Some (Op 0, 1)) None [PByte 243; PModRex false; PByte 15; PByte 93; PModRM; PSib; PDisp],
    [TByte 243; TByte 15; TByte 93; TSlash 0 1]);
  (* 10598-10611; 1072 *) (Inst "movapd" [KX; KX] (Some (Op 0, 1)) None [PByte 102; PModRex false; PByte 15; PByte 40; PModRM; PSib; PDisp],
    [TByte 102; TByte 15; TByte 40; TSlash 0 1]);
  (* 10614-10627; 1072 *) (Inst "movapd" [KX; KMem] (Some (Op 0, 1)) None [PByte 102; PModRex false; PByte 15; PByte 40; PModRM; PSib; PDisp],
    [TByte 102; TByte 15; TByte 40; TSlash 0 1]);
  (* 10630-10643; 1073 *) (Inst "movapd" [KMem; KX] (Some (Op 1, 0)) None [PByte 102; PModRex false; PByte 15; PByte 41; PModRM; PSib; PDisp],
    [TByte 102; TByte 15; TByte 41; TSlash 1 0]);
  (* 10648-10660; 1078 *) (Inst "movaps" [KX; KX] (Some (Op 0, 1)) None [PModRex false; PByte 15; PByte 40; PModRM; PSib; PDisp],
    [TByte 15; TByte 40; TSlash 0 1]);
  (* 10663-10675; 1078 *) (Inst "movaps" [KX; KMem] (Some (Op 0, 1)) None [PModRex false; PByte 15; PByte 40; PModRM; PSib; PDisp],
    [TByte 15; TByte 40; TSlash 0 1]);
  (* 10678-10690; 1079 *) (Inst "movaps" [KMem; KX] (Some (Op 1, 0)) None [PModRex false; PByte 15; PByte 41; PModRM; PSib; PDisp],
    [TByte 15; TByte 41; TSlash 1 0]);
  (* 10695-10704; 1084 *) (Inst "movb" [K8; KI8] None (Some 0) [PRioRex false; PBytePlus 176; PImm 1],
    [TByte 176; TPlus 0; TImm 1 1]);
  (* 10707-10718; 1085 *) (Inst "movb" [K8; K8] (Some (Op 0, 1)) None [PModRex false; PByte 138; PModRM; PSib; PDisp],
    [TByte 138; TSlash 0 1]);
  (* 10721-10732; 1085 *) (Inst "movb" [K8; KMem] (Some (Op 0, 1)) None [PModRex false; PByte 138; PModRM; PSib; PDisp],
    [TByte 138; TSlash 0 1]);
  (* 10735-10746; 1086 *) (Inst "movb" [KMem; K8] (Some (Op 1, 0)) None [PModRex false; PByte 136; PModRM; PSib; PDisp],
    [TByte 136; TSlash 1 0]);
  (* 10749-10761; 1087 *) (Inst "movb" [KMem; KI8] (Some (Digit 0, 0)) None [PModRex false; PByte 198; PModRM; PSib; PDisp; PImm 1],
    [TByte 198; TDigit 0 0; TImm 1 1]);
  (* 10766-10779; 1092 *) (Inst "movd" [K32; KX] (Some (Op 1, 0)) None [PByte 102; PModRex false; PByte 15; PByte 126; PModRM; PSib; PDisp],
    [TByte 102; TByte 15; TByte 126; TSlash 1 0]);
  (* 10782-10795; 1092 *) (Inst "movd" [KMem; KX] (Some (Op 1, 0)) None [PByte 102; PModRex false; PByte 15; PByte 126; PModRM; PSib; PDisp],
    [TByte 102; TByte 15; TByte 126; TSlash 1 0]);
  (* 10798-10811; 1093 *) (Inst "movd" [KX; K32] (Some (Op 0, 1)) None [PByte 102; PModRex false; PByte 15; PByte 110; PModRM; PSib; PDisp],
    [TByte 102; TByte 15; TByte 110; TSlash 0 1]);
  (* 10814-10827; 1093 *) (Inst "movd" [KX; KMem] (Some (Op 0, 1)) None [PByte 102; PModRex false; PByte 15; PByte 110; PModRM; PSib; PDisp],
    [TByte 102; TByte 15; TByte 110; TSlash 0 1]);
  (* 10832-10845; 1098 *) (Inst "movdqa" [KX; KX] (Some (Op 0, 1)) None [PByte 102; PModRex false; PByte 15; PByte 111; PModRM; PSib; PDisp],
    [TByte 102; TByte 15; TByte 111; TSlash 0 1]);
  (* 10848-10861; 1098 *) (Inst "movdqa" [KX; KMem] (Some (Op 0, 1)) None [PByte 102; PModRex false; PByte 15; PByte 111; PModRM; PSib; PDisp],
    [TByte 102; TByte 15; TByte 111; TSlash 0 1]);
  (* 10864-10877; 1099 *) (Inst "movdqa" [KMem; KX] (Some (Op 1, 0)) None [PByte 102; PModRex false; PByte 15; PByte 127; PModRM; PSib; PDisp],
    [TByte 102; TByte 15; TByte 127; TSlash 1 0]);
  (* 10882-10895; 1104 *) (Inst "movdqu" [KX; KX] (Some (Op 0, 1)) None [PByte 243; PModRex false; PByte 15; PByte 111; PModRM; PSib; PDisp],
    [TByte 243; TByte 15; TByte 111; TSlash 0 1]);
  (* 10898-10911; 1104 *) (Inst "movdqu" [KX; KMem] (Some (Op 0, 1)) None [PByte 243; PModRex false; PByte 15; PByte 111; PModRM; PSib; PDisp],
    [TByte 243; TByte 15; TByte 111; TSlash 0 1]);
  (* 10914-10927; 1105 *) (Inst "movdqu" [KMem; KX] (Some (Op 1, 0)) None [PByte 243; PModRex false; PByte 15; PByte 127; PModRM; PSib; PDisp],
    [TByte 243; TByte 15; TByte 127; TSlash 1 0])].

Definition table5 : list (inst * list token) := [
  (* 10932-10944; 1110 *) (Inst "movhlps" [KX; KX] (Some (Op 0, 1)) None [PModRex false; PByte 15; PByte 18; PModRM; PSib; PDisp],
    [TByte 15; TByte 18; TSlash 0 1]);
  (* 10949-10962; 1115 *) (Inst "movhpd" [KMem; KX] (Some (Op 1, 0)) None [PByte 102; PModRex false; PByte 15; PByte 23; PModRM; PSib; PDisp],
    [TByte 102; TByte 15; TByte 23; TSlash 1 0]);
  (* 10965-10978; 1116 *) (Inst "movhpd" [KX; KMem] (Some (Op 0, 1)) None [PByte 102; PModRex false; PByte 15; PByte 22; PModRM; PSib; PDisp],
    [TByte 102; TByte 15; TByte 22; TSlash 0 1]);
  (* 10983-10995; 1121 *) (Inst "movhps" [KMem; KX] (Some (Op 1, 0)) None [PModRex false; PByte 15; PByte 23; PModRM; PSib; PDisp],
    [TByte 15; TByte 23; TSlash 1 0]);
  (* 10998-11010; 1122 *) (Inst "movhps" [KX; KMem] (Some (Op 0, 1)) None [PModRex false; PByte 15; PByte 22; PModRM; PSib; PDisp],
    [TByte 15; TByte 22; TSlash 0 1]);
  (* 11015-11024; 1127 *) (Inst "movl" [K32; KI32] None (Some 0) [PRioRex false; PBytePlus 184; PImm 1],
    [TByte 184; TPlus 0; TImm 4 1]);
  (* 11027-11038; 1128 *) (Inst "movl" [K32; K32] (Some (Op 0, 1)) None [PModRex false; PByte 139; PModRM; PSib; PDisp],
    [TByte 139; TSlash 0 1]);
  (* 11041-11052; 1128 *) (Inst "movl" [K32; KMem] (Some (Op 0, 1)) None [PModRex false; PByte 139; PModRM; PSib; PDisp],
    [TByte 139; TSlash 0 1]);
  (* 11055-11066; 1129 *) (Inst "movl" [KMem; K32] (Some (Op 1, 0)) None [PModRex false; PByte 137; PModRM; PSib; PDisp],
    [TByte 137; TSlash 1 0]);
  (* 11069-11081; 1130 *) (Inst "movl" [KMem; KI32] (Some (Digit 0, 0)) None [PModRex false; PByte 199; PModRM; PSib; PDisp; PImm 1],
    [TByte 199; TDigit 0 0; TImm 4 1]);
  (* 11086-11098; 1135 *) (Inst "movlhps" [KX; KX] (Some (Op 0, 1)) None [PModRex false; PByte 15; PByte 22; PModRM; PSib; PDisp],
    [TByte 15; TByte 22; TSlash 0 1]);
  (* 11103-11116; 1140 *) (Inst "movlpd" [KMem; KX] (Some (Op 1, 0)) None [PByte 102; PModRex false; PByte 15; PByte 19; PModRM; PSib; PDisp],
    [TByte 102; TByte 15; TByte 19; TSlash 1 0]);
  (* 11119-11132; 1141 *) (Inst "movlpd" [KX; KMem] (Some (Op 0, 1)) None [PByte 102; PModRex false; PByte 15; PByte 18; PModRM; PSib; PDisp],
    [TByte 102; TByte 15; TByte 18; TSlash 0 1]);
  (* 11137-11149; 1146 *) (Inst "movlps" [KMem; KX] (Some (Op 1, 0)) None [PModRex false; PByte 15; PByte 19; PModRM; PSib; PDisp],
    [TByte 15; TByte 19; TSlash 1 0]);
  (* 11152-11164; 1147 *) (Inst "movlps" [KX; KMem] (Some (Op 0, 1)) None [PModRex false; PByte 15; PByte 18; PModRM; PSib; PDisp],
    [TByte 15; TByte 18; TSlash 0 1]);
  (* 11169-11182; 1152 *) (Inst "movmskpd" [K64; KX] (Some (Op 0, 1)) None [PByte 102; PModRex false; PByte 15; PByte 80; PModRM; PSib; PDisp],
    [TByte 102; TByte 15; TByte 80; TSlash 0 1]);
  (* 11187-11199; 1157 *) (Inst "movmskps" [K64; KX] (Some (Op 0, 1)) None [PModRex false; PByte 15; PByte 80; PModRM; PSib; PDisp],
    [TByte 15; TByte 80; TSlash 0 1]);
  (* 11204-11217; 1162 *) (Inst "movntdq" [KMem; KX] (Some (Op 1, 0)) None [PByte 102; PModRex false; PByte 15; PByte 231; PModRM; PSib; PDisp],
    [TByte 102; TByte 15; TByte 231; TSlash 1 0]);
  (* 11222-11236; 1167 *) (Inst "movntdqa" [KX; KMem] (Some (Op 0, 1)) None [PByte 102; PModRex false; PByte 15; PByte 56; PByte 42; PModRM; PSib; PDisp],
    [TByte 102; TByte 15; TByte 56; TByte 42; TSlash 0 1]);
  (* 11241-11253; 1172 *) (Inst "movnti" [KMem; K32] (Some (Op 1, 0)) None [PModRex false; PByte 15; PByte 195; PModRM; PSib; PDisp],
    [TByte 15; TByte 195; TSlash 1 0]);
  (* 11256-11268; 1173 *) (Inst "movnti" [KMem; K64] (Some (Op 1, 0)) None [PModRex true; PByte 15; PByte 195; PModRM; PSib; PDisp],
    [TRexW; TByte 15; TByte 195; TSlash 1 0]);
  (* 11273-11286; 1178 *) (Inst "movntpd" [KMem; KX] (Some (Op 1, 0)) None [PByte 102; PModRex false; PByte 15; PByte 43; PModRM; PSib; PDisp],
    [TByte 102; TByte 15; TByte 43; TSlash 1 0]);
  (* 11291-11303; 1183 *) (Inst "movntps" [KMem; KX] (Some (Op 1, 0)) None [PModRex false; PByte 15; PByte 43; PModRM; PSib; PDisp],
    [TByte 15; TByte 43; TSlash 1 0]);
  (* 11308-11317; 1188 *) (Inst "movq" [K64; KI64] None (Some 0) [PRioRex true; PBytePlus 184; PImm 1],
    [TRexW; TByte 184; TPlus 0; TImm 8 1]);
  (* 11320-11331; 1189 *) (Inst "movq" [K64; K64] (Some (Op 0, 1)) None [PModRex true; PByte 139; PModRM; PSib; PDisp],
    [TRexW; TByte 139; TSlash 0 1]);
  (* 11334-11345; 1189 *) (Inst "movq" [K64; KMem] (Some (Op 0, 1)) None [PModRex true; PByte 139; PModRM; PSib; PDisp],
    [TRexW; TByte 139; TSlash 0 1]);
  (* 11348-11359; 1190 *) (Inst "movq" [KMem; K64] (Some (Op 1, 0)) None [PModRex true; PByte 137; PModRM; PSib; PDisp],
    [TRexW; TByte 137; TSlash 1 0]);
  (* 11362-11374; 1191 *) (Inst "movq" [K64; KI32] (Some (Digit 0, 0)) None [PModRex true; PByte 199; PModRM; PSib; PDisp; PImm 1],
    [TRexW; TByte 199; TDigit 0 0; TImm 4 1]);
  (* 11377-11389; 1191 *) (Inst "movq" [KMem; KI32] (Some (Digit 0, 0)) None [PModRex true; PByte 199; PModRM; PSib; PDisp; PImm 1],
    [TRexW; TByte 199; TDigit 0 0; TImm 4 1]);
  (* 11392-11405; 1192 *) (Inst "movq" [K64; KX] (Some (Op 1, 0)) None [PByte 102; PModRex true; PByte 15; PByte 126; PModRM; PSib; PDisp],
    [TByte 102; TRexW; TByte 15; TByte 126; TSlash 1 0]);
  (* 11408-11421; 1192 *) (Inst "movq" [KMem; KX] (Some (Op 1, 0)) None [PByte 102; PModRex true; PByte 15; PByte 126; PModRM; PSib; PDisp],
    [TByte 102; TRexW; TByte 15; TByte 126; TSlash 1 0]);
  (* 11424-11437; 1193 *) (Inst "movq" [KX; K64] (Some (Op 0, 1)) None [PByte 102; PModRex true; PByte 15; PByte 110; PModRM; PSib; PDisp],
    [TByte 102; TRexW; TByte 15; TByte 110; TSlash 0 1]);
  (* 11440-11453; 1193 *) (Inst "movq" [KX; KMem] (Some (Op 0, 1)) None [PByte 102; PModRex true; PByte 15; PByte 110; PModRM; PSib; PDisp],
    [TByte 102; TRexW; TByte 15; TByte 110; TSlash 0 1]);
  (* 11456-11469; 1194 *) (Inst "movq" [KX; KX] (Some (Op 0, 1)) None [PByte 243; PModRex false; PByte 15; PByte 126; PModRM; PSib; PDisp],
    [TByte 243; TByte 15; TByte 126; TSlash 0 1]);
  (* 11474-11486; 1200 *) (Inst "movsbl" [K32; K8] (Some (Op 0, 1)) None [PModRex false; PByte 15; PByte 190; PModRM; PSib; PDisp],
    [TByte 15; TByte 190; TSlash 0 1]);
  (* 11489-11501; 1200 *) (Inst "movsbl" [K32; KMem] (Some (Op 0, 1)) None [PModRex false; PByte 15; PByte 190; PModRM; PSib; PDisp],
    [TByte 15; TByte 190; TSlash 0 1]);
  (* 11506-11518; 1205 *) (Inst "movsbq" [K64; K8] (Some (Op 0, 1)) None [PModRex true; PByte 15; PByte 190; PModRM; PSib; PDisp],
    [TRexW; TByte 15; TByte 190; TSlash 0 1]);
  (* 11521-11533; 1205 *) (Inst "movsbq" [K64; KMem] (Some (Op 0, 1)) None [PModRex true; PByte 15; PByte 190; PModRM; PSib; PDisp],
    [TRexW; TByte 15; TByte 190; TSlash 0 1]);
  (* 11538-11551; 1210 *) (Inst "movsbw" [K16; K8] (Some (Op 0, 1)) None [PByte 102; PModRex false; PByte 15; PByte 190; PModRM; PSib; PDisp],
    [TByte 102; TByte 15; TByte 190; TSlash 0 1]);
  (* 11554-11567; 1210 *) (Inst "movsbw" [K16; KMem] (Some (Op 0, 1)) None [PByte 102; PModRex false; PByte 15; PByte 190; PModRM; PSib; PDisp],
    [TByte 102; TByte 15; TByte 190; TSlash 0 1]);
  (* 11572-11585; 1215 *) (Inst "movsd" [KX; KX] (Some (Op 0, 1)) None [PByte 242; PModRex false; PByte 15; PByte 16; PModRM; PSib; PDisp],
    [TByte 242; TByte 15; TByte 16; TSlash 0 1]);
  (* 11588-11601; 1215 *) (Inst "movsd" [KX; KMem] (Some (Op 0, 1)) None [PByte 242; PModRex false; PByte 15; PByte 16; PModRM; PSib; PDisp],
    [TByte 242; TByte 15; TByte 16; TSlash 0 1]);
  (* 11604-11617; 1216 *) (Inst "movsd" [KMem; KX] (Some (Op 1, 0)) None [PByte 242; PModRex false; PByte 15; PByte 17; PModRM; PSib; PDisp],
    [TByte 242; TByte 15; TByte 17; TSlash 1 0]);
  (* 11622-11628; 1221 *) (Inst "movsl" [] None None [PByte 165],
    [TByte 165]);
  (* 11633-11644; 1226 *) (Inst "movslq" [K64; K32] (Some (Op 0, 1)) None [PModRex true; PByte 99; PModRM; PSib; PDisp],
    [TRexW; TByte 99; TSlash 0 1]);
  (* 11647-11658; 1226 *) (Inst "movslq" [K64; KMem] (Some (Op 0, 1)) None [PModRex true; PByte 99; PModRM; PSib; PDisp],
    [TRexW; TByte 99; TSlash 0 1]);
  (* 11663-11676; 1231 *) (Inst "movss" [KX; KX] (Some (Op 0, 1)) None [PByte 243; PModRex false; PByte 15; PByte 16; PModRM; PSib; PDisp],
    [TByte 243; TByte 15; TByte 16; TSlash 0 1]);
  (* 11679-11692; 1231 *) (Inst "movss" [KX; KMem] (Some (Op 0, 1)) None [PByte 243; PModRex false; PByte 15; PByte 16; PModRM; PSib; PDisp],
    [TByte 243; TByte 15; TByte 16; TSlash 0 1]);
  (* 11695-11708; 1232 *) (Inst "movss" [KMem; KX] (Some (Op 1, 0)) None [PByte 243; PModRex false; PByte 15; PByte 17; PModRM; PSib; PDisp],
    [TByte 243; TByte 15; TByte 17; TSlash 1 0]);
  (* 11713-11725; 1237 *) (Inst "movswl" [K32; K16] (Some (Op 0, 1)) None [PModRex false; PByte 15; PByte 191; PModRM; PSib; PDisp],
    [TByte 15; TByte 191; TSlash 0 1]);
  (* 11728-11740; 1237 *) (Inst "movswl" [K32; KMem] (Some (Op 0, 1)) None [PModRex false; PByte 15; PByte 191; PModRM; PSib; PDisp],
    [TByte 15; TByte 191; TSlash 0 1]);
  (* 11745-11757; 1242 *) (Inst "movswq" [K64; K16] (Some (Op 0, 1)) None [PModRex true; PByte 15; PByte 191; PModRM; PSib; PDisp],
    [TRexW; TByte 15; TByte 191; TSlash 0 1]);
  (* 11760-11772; 1242 *) (Inst "movswq" [K64; KMem] (Some (Op 0, 1)) None [PModRex true; PByte 15; PByte 191; PModRM; PSib; PDisp],
    [TRexW; TByte 15; TByte 191; TSlash 0 1]);
  (* 11777-11790; 1247 *) (Inst "movupd" [KX; KX] (Some (Op 0, 1)) None [PByte 102; PModRex false; PByte 15; PByte 16; PModRM; PSib; PDisp],
    [TByte 102; TByte 15; TByte 16; TSlash 0 1]);
  (* 11793-11806; 1247 *) (Inst "movupd" [KX; KMem] (Some (Op 0, 1)) None [PByte 102; PModRex false; PByte 15; PByte 16; PModRM; PSib; PDisp],
    [TByte 102; TByte 15; TByte 16; TSlash 0 1]);
  (* 11809-11822; 1248 *) (Inst "movupd" [KMem; KX] (Some (Op 1, 0)) None [PByte 102; PModRex false; PByte 15; PByte 17; PModRM; PSib; PDisp],
    [TByte 102; TByte 15; TByte 17; TSlash 1 0]);
  (* 11827-11839; 1253 *) (Inst "movups" [KX; KX] (Some (Op 0, 1)) None [PModRex false; PByte 15; PByte 16; PModRM; PSib; PDisp],
    [TByte 15; TByte 16; TSlash 0 1]);
  (* 11842-11854; 1253 *) (Inst "movups" [KX; KMem] (Some (Op 0, 1)) None [PModRex false; PByte 15; PByte 16; PModRM; PSib; PDisp],
    [TByte 15; TByte 16; TSlash 0 1]);
  (* 11857-11869; 1254 *) (Inst "movups" [KMem; KX] (Some (Op 1, 0)) None [PModRex false; PByte 15; PByte 17; PModRM; PSib; PDisp],
    [TByte 15; TByte 17; TSlash 1 0]);
  (* 11874-11884; 1259 *) (Inst "movw" [K16; KI16] None (Some 0) [PByte 102; PRioRex false; PBytePlus 184; PImm 1],
    [TByte 102; TByte 184; TPlus 0; TImm 2 1]);
  (* 11887-11899; 1260 *) (Inst "movw" [K16; K16] (Some (Op 0, 1)) None [PByte 102; PModRex false; PByte 139; PModRM; PSib; PDisp],
    [TByte 102; TByte 139; TSlash 0 1]);
  (* 11902-11914; 1260 *) (Inst "movw" [K16; KMem] (Some (Op 0, 1)) None [PByte 102; PModRex false; PByte 139; PModRM; PSib; PDisp],
    [TByte 102; TByte 139; TSlash 0 1]);
  (* 11917-11929; 1261 *) (Inst "movw" [KMem; K16] (Some (Op 1, 0)) None [PByte 102; PModRex false; PByte 137; PModRM; PSib; PDisp],
    [TByte 102; TByte 137; TSlash 1 0]);
  (* 11932-11945; 1262 *) (Inst "movw" [KMem; KI16] (Some (Digit 0, 0)) None [PByte 102; PModRex false; PByte 199; PModRM; PSib; PDisp; PImm 1],
    [TByte 102; TByte 199; TDigit 0 0; TImm 2 1]);
  (* 11950-11962; 1267 *) (Inst "movzbl" [K32; K8] (Some (Op 0, 1)) None [PModRex false; PByte 15; PByte 182; PModRM; PSib; PDisp],
    [TByte 15; TByte 182; TSlash 0 1]);
  (* 11965-11977; 1267 *) (Inst "movzbl" [K32; KMem] (Some (Op 0, 1)) None [PModRex false; PByte 15; PByte 182; PModRM; PSib; PDisp],
    [TByte 15; TByte 182; TSlash 0 1]);
  (* 11982-11994; 1272 *) (Inst "movzbq" [K64; K8] (Some (Op 0, 1)) None [PModRex true; PByte 15; PByte 182; PModRM; PSib; PDisp],
    [TRexW; TByte 15; TByte 182; TSlash 0 1]);
  (* 11997-12009; 1272 *) (Inst "movzbq" [K64; KMem] (Some (Op 0, 1)) None [PModRex true; PByte 15; PByte 182; PModRM; PSib; PDisp],
    [TRexW; TByte 15; TByte 182; TSlash 0 1]);
  (* 12014-12027; 1277 *) (Inst "movzbw" [K16; K8] (Some (Op 0, 1)) None [PByte 102; PModRex false; PByte 15; PByte 182; PModRM; PSib; PDisp],
    [TByte 102; TByte 15; TByte 182; TSlash 0 1]);
  (* 12030-12043; 1277 *) (Inst "movzbw" [K16; KMem] (Some (Op 0, 1)) None [PByte 102; PModRex false; PByte 15; PByte 182; PModRM; PSib; PDisp],
    [TByte 102; TByte 15; TByte 182; TSlash 0 1]);
  (* 12048-12060; 1282 *) (Inst "movzwl" [K32; K16] (Some (Op 0, 1)) None [PModRex false; PByte 15; PByte 183; PModRM; PSib; PDisp],
    [TByte 15; TByte 183; TSlash 0 1]);
  (* 12063-12075; 1282 *) (Inst "movzwl" [K32; KMem] (Some (Op 0, 1)) None [PModRex false; PByte 15; PByte 183; PModRM; PSib; PDisp],
    [TByte 15; TByte 183; TSlash 0 1]);
  (* 12080-12092; 1287 *) (Inst "movzwq" [K64; K16] (Some (Op 0, 1)) None [PModRex true; PByte 15; PByte 183; PModRM; PSib; PDisp],
    [TRexW; TByte 15; TByte 183; TSlash 0 1]);
  (* 12095-12107; 1287 *) (Inst "movzwq" [K64; KMem] (Some (Op 0, 1)) None [PModRex true; PByte 15; PByte 183; PModRM; PSib; PDisp],
    [TRexW; TByte 15; TByte 183; TSlash 0 1]);
  (* 12112-12127; 1292 *) (Inst "mpsadbw" [KX; KX; KI8] (Some (Op 0, 1)) None [PByte 102; PModRex false; PByte 15; PByte 58; PByte 66; PModRM; PSib; PDisp; PImm 2],
    [TByte 102; TByte 15; TByte 58; TByte 66; TSlash 0 1; TImm 1 2]);
  (* 12130-12145; 1292 *) (Inst "mpsadbw" [KX; KMem; KI8] (Some (Op 0, 1)) None [PByte 102; PModRex false; PByte 15; PByte 58; PByte 66; PModRM; PSib; PDisp; PImm 2],
    [TByte 102; TByte 15; TByte 58; TByte 66; TSlash 0 1; TImm 1 2]);
  (* 12150-12161; 1297 *) (Inst "mulb" [K8] (Some (Digit 4, 0)) None [PModRex false; PByte 246; PModRM; PSib; PDisp],
    [TByte 246; TDigit 4 0]);
  (* 12164-12175; 1297 *) (Inst "mulb" [KMem] (Some (Digit 4, 0)) None [PModRex false; PByte 246; PModRM; PSib; PDisp],
    [TByte 246; TDigit 4 0]);
  (* 12180-12191; 1302 *) (Inst "mull" [K32] (Some (Digit 4, 0)) None [PModRex false; PByte 247; PModRM; PSib; PDisp],
    [TByte 247; TDigit 4 0]);
  (* 12194-12205; 1302 *) (Inst "mull" [KMem] (Some (Digit 4, 0)) None [PModRex false; PByte 247; PModRM; PSib; PDisp],
    [TByte 247; TDigit 4 0]);
  (* 12210-12223; 1307 *) (Inst "mulpd" [KX; KX] (Some (Op 0, 1)) None [PByte 102; PModRex false; PByte 15; PByte 89; PModRM; PSib; PDisp],
    [TByte 102; TByte 15; TByte 89; TSlash 0 1]);
  (* 12226-12239; 1307 *) (Inst "mulpd" [KX; KMem] (Some (Op 0, 1)) None [PByte 102; PModRex false; PByte 15; PByte 89; PModRM; PSib; PDisp],
    [TByte 102; TByte 15; TByte 89; TSlash 0 1]);
  (* 12244-12256; 1312 *) (Inst "mulps" [KX; KX] (Some (Op 0, 1)) None [PModRex false; PByte 15; PByte 89; PModRM; PSib; PDisp],
    [TByte 15; TByte 89; TSlash 0 1]);
  (* 12259-12271; 1312 *) (Inst "mulps" [KX; KMem] (Some (Op 0, 1)) None [PModRex false; PByte 15; PByte 89; PModRM; PSib; PDisp],
    [TByte 15; TByte 89; TSlash 0 1]);
  (* 12276-12287; 1317 *) (Inst "mulq" [K64] (Some (Digit 4, 0)) None [PModRex true; PByte 247; PModRM; PSib; PDisp],
    [TRexW; TByte 247; TDigit 4 0]);
  (* 12290-12301; 1317 *) (Inst "mulq" [KMem] (Some (Digit 4, 0)) None [PModRex true; PByte 247; PModRM; PSib; PDisp],
    [TRexW; TByte 247; TDigit 4 0]);
  (* 12306-12319; 1322 *) (Inst "mulsd" [KX; KX] (Some (Op 0, 1)) None [PByte 242; PModRex false; PByte 15; PByte 89; PModRM; PSib; PDisp],
    [TByte 242; TByte 15; TByte 89; TSlash 0 1]);
  (* 12322-12335; 1322 *) (Inst "mulsd" [KX; KMem] (Some (Op 0, 1)) None [PByte 242; PModRex false; PByte 15; PByte 89; PModRM; PSib; PDisp],
    [TByte 242; TByte 15; TByte 89; TSlash 0 1]);
  (* 12340-12353; 1327 *) (Inst "mulss" [KX; KX] (Some (Op 0, 1)) None [PByte 243; PModRex false; PByte 15; PByte 89; PModRM; PSib; PDisp],
    [TByte 243; TByte 15; TByte 89; TSlash 0 1]);
  (* 12356-12369; 1327 *) (Inst "mulss" [KX; KMem] (Some (Op 0, 1)) None [PByte 243; PModRex false; PByte 15; PByte 89; PModRM; PSib; PDisp],
    [TByte 243; TByte 15; TByte 89; TSlash 0 1]);
  (* 12374-12386; 1332 *) (Inst "mulw" [K16] (Some (Digit 4, 0)) None [PByte 102; PModRex false; PByte 247; PModRM; PSib; PDisp],
    [TByte 102; TByte 247; TDigit 4 0]);
  (* 12389-12401; 1332 *) (Inst "mulw" [KMem] (Some (Digit 4, 0)) None [PByte 102; PModRex false; PByte 247; PModRM; PSib; PDisp],
    [TByte 102; TByte 247; TDigit 4 0]);
  (* 12406-12417; 1337 *) (Inst "negb" [K8] (Some (Digit 3, 0)) None [PModRex false; PByte 246; PModRM; PSib; PDisp],
    [TByte 246; TDigit 3 0]);
  (* 12420-12431; 1337 *) (Inst "negb" [KMem] (Some (Digit 3, 0)) None [PModRex false; PByte 246; PModRM; PSib; PDisp],
    [TByte 246; TDigit 3 0]);
  (* 12436-12447; 1342 *) (Inst "negl" [K32] (Some (Digit 3, 0)) None [PModRex false; PByte 247; PModRM; PSib; PDisp],
    [TByte 247; TDigit 3 0]);
  (* 12450-12461; 1342 *) (Inst "negl" [KMem] (Some (Digit 3, 0)) None [PModRex false; PByte 247; PModRM; PSib; PDisp],
    [TByte 247; TDigit 3 0]);
  (* 12466-12477; 1347 *) (Inst "negq" [K64] (Some (Digit 3, 0)) None [PModRex true; PByte 247; PModRM; PSib; PDisp],
    [TRexW; TByte 247; TDigit 3 0]);
  (* 12480-12491; 1347 *) (Inst "negq" [KMem] (Some (Digit 3, 0)) None [PModRex true; PByte 247; PModRM; PSib; PDisp],
    [TRexW; TByte 247; TDigit 3 0]);
  (* 12496-12508; 1352 *) (Inst "negw" [K16] (Some (Digit 3, 0)) None [PByte 102; PModRex false; PByte 247; PModRM; PSib; PDisp],
    [TByte 102; TByte 247; TDigit 3 0]);
  (* 12511-12523; 1352 *) (Inst "negw" [KMem] (Some (Digit 3, 0)) None [PByte 102; PModRex false; PByte 247; PModRM; PSib; PDisp],
    [TByte 102; TByte 247; TDigit 3 0])].

Definition table6 : list (inst * list token) := [
  (* 12528-12534; 1357 *) (Inst "nop" [] None None [PByte 144],
    [TByte 144]);
  (* 12539-12550; 1362 *) (Inst "notb" [K8] (Some (Digit 2, 0)) None [PModRex false; PByte 246; PModRM; PSib; PDisp],
    [TByte 246; TDigit 2 0]);
  (* 12553-12564; 1362 *) (Inst "notb" [KMem] (Some (Digit 2, 0)) None [PModRex false; PByte 246; PModRM; PSib; PDisp],
    [TByte 246; TDigit 2 0]);
  (* 12569-12580; 1367 *) (Inst "notl" [K32] (Some (Digit 2, 0)) None [PModRex false; PByte 247; PModRM; PSib; PDisp],
    [TByte 247; TDigit 2 0]);
  (* 12583-12594; 1367 *) (Inst "notl" [KMem] (Some (Digit 2, 0)) None [PModRex false; PByte 247; PModRM; PSib; PDisp],
    [TByte 247; TDigit 2 0]);
  (* 12599-12610; 1372 *) (Inst "notq" [K64] (Some (Digit 2, 0)) None [PModRex true; PByte 247; PModRM; PSib; PDisp],
    [TRexW; TByte 247; TDigit 2 0]);
  (* 12613-12624; 1372 *) (Inst "notq" [KMem] (Some (Digit 2, 0)) None [PModRex true; PByte 247; PModRM; PSib; PDisp],
    [TRexW; TByte 247; TDigit 2 0]);
  (* 12629-12641; 1377 *) (Inst "notw" [K16] (Some (Digit 2, 0)) None [PByte 102; PModRex false; PByte 247; PModRM; PSib; PDisp],
    [TByte 102; TByte 247; TDigit 2 0]);
  (* 12644-12656; 1377 *) (Inst "notw" [KMem] (Some (Digit 2, 0)) None [PByte 102; PModRex false; PByte 247; PModRM; PSib; PDisp],
    [TByte 102; TByte 247; TDigit 2 0]);
  (* 12661-12672; 1382 *) (Inst "orb" [K8; K8] (Some (Op 0, 1)) None [PModRex false; PByte 10; PModRM; PSib; PDisp],
    [TByte 10; TSlash 0 1]);
  (* 12675-12686; 1382 *) (Inst "orb" [K8; KMem] (Some (Op 0, 1)) None [PModRex false; PByte 10; PModRM; PSib; PDisp],
    [TByte 10; TSlash 0 1]);
  (* 12689-12700; 1383 *) (Inst "orb" [KMem; K8] (Some (Op 1, 0)) None [PModRex false; PByte 8; PModRM; PSib; PDisp],
    [TByte 8; TSlash 1 0]);
  (* 12703-12715; 1384 *) (Inst "orb" [K8; KI8] (Some (Digit 1, 0)) None [PModRex false; PByte 128; PModRM; PSib; PDisp; PImm 1],
    [TByte 128; TDigit 1 0; TImm 1 1]);
  (* 12718-12730; 1384 *) (Inst "orb" [KMem; KI8] (Some (Digit 1, 0)) None [PModRex false; PByte 128; PModRM; PSib; PDisp; PImm 1],
    [TByte 128; TDigit 1 0; TImm 1 1]);
  (* 12733-12740; 1385 *) (Inst "orb" [KFixed FAl; KI8] None None [PByte 12; PImm 1],
    [TByte 12; TImm 1 1]);
  (* 12745-12756; 1390 *) (Inst "orl" [K32; K32] (Some (Op 0, 1)) None [PModRex false; PByte 11; PModRM; PSib; PDisp],
    [TByte 11; TSlash 0 1]);
  (* 12759-12770; 1390 *) (Inst "orl" [K32; KMem] (Some (Op 0, 1)) None [PModRex false; PByte 11; PModRM; PSib; PDisp],
    [TByte 11; TSlash 0 1]);
  (* 12773-12784; 1391 *) (Inst "orl" [KMem; K32] (Some (Op 1, 0)) None [PModRex false; PByte 9; PModRM; PSib; PDisp],
    [TByte 9; TSlash 1 0]);
  (* 12787-12799; 1392 *) (Inst "orl" [K32; KI8] (Some (Digit 1, 0)) None [PModRex false; PByte 131; PModRM; PSib; PDisp; PImm 1],
    [TByte 131; TDigit 1 0; TImm 1 1]);
  (* 12802-12814; 1392 *) (Inst "orl" [KMem; KI8] (Some (Digit 1, 0)) None [PModRex false; PByte 131; PModRM; PSib; PDisp; PImm 1],
    [TByte 131; TDigit 1 0; TImm 1 1]);
  (* 12817-12829; 1393 *) (Inst "orl" [K32; KI32] (Some (Digit 1, 0)) None [PModRex false; PByte 129; PModRM; PSib; PDisp; PImm 1],
    [TByte 129; TDigit 1 0; TImm 4 1]);
  (* 12832-12844; 1393 *) (Inst "orl" [KMem; KI32] (Some (Digit 1, 0)) None [PModRex false; PByte 129; PModRM; PSib; PDisp; PImm 1],
    [TByte 129; TDigit 1 0; TImm 4 1]);
  (* 12847-12854; 1394 *) (Inst "orl" [KFixed FEax; KI32] None None [PByte 13; PImm 1],
    [TByte 13; TImm 4 1]);
  (* 12859-12872; 1399 *) (Inst "orpd" [KX; KX] (Some (Op 0, 1)) None [PByte 102; PModRex false; PByte 15; PByte 86; PModRM; PSib; PDisp],
    [TByte 102; TByte 15; TByte 86; TSlash 0 1]);
  (* 12875-12888; 1399 *) (Inst "orpd" [KX; KMem] (Some (Op 0, 1)) None [PByte 102; PModRex false; PByte 15; PByte 86; PModRM; PSib; PDisp],
    [TByte 102; TByte 15; TByte 86; TSlash 0 1]);
  (* 12893-12905; 1404 *) (Inst "orps" [KX; KX] (Some (Op 0, 1)) None [PModRex false; PByte 15; PByte 86; PModRM; PSib; PDisp],
    [TByte 15; TByte 86; TSlash 0 1]);
  (* 12908-12920; 1404 *) (Inst "orps" [KX; KMem] (Some (Op 0, 1)) None [PModRex false; PByte 15; PByte 86; PModRM; PSib; PDisp],
    [TByte 15; TByte 86; TSlash 0 1]);
  (* 12925-12936; 1409 *) (Inst "orq" [K64; K64] (Some (Op 0, 1)) None [PModRex true; PByte 11; PModRM; PSib; PDisp],
    [TRexW; TByte 11; TSlash 0 1]);
  (* 12939-12950; 1409 *) (Inst "orq" [K64; KMem] (Some (Op 0, 1)) None [PModRex true; PByte 11; PModRM; PSib; PDisp],
    [TRexW; TByte 11; TSlash 0 1]);
  (* 12953-12964; 1410 *) (Inst "orq" [KMem; K64] (Some (Op 1, 0)) None [PModRex true; PByte 9; PModRM; PSib; PDisp],
    [TRexW; TByte 9; TSlash 1 0]);
  (* 12967-12979; 1411 *) (Inst "orq" [K64; KI8] (Some (Digit 1, 0)) None [PModRex true; PByte 131; PModRM; PSib; PDisp; PImm 1],
    [TRexW; TByte 131; TDigit 1 0; TImm 1 1]);
  (* 12982-12994; 1411 *) (Inst "orq" [KMem; KI8] (Some (Digit 1, 0)) None [PModRex true; PByte 131; PModRM; PSib; PDisp; PImm 1],
    [TRexW; TByte 131; TDigit 1 0; TImm 1 1]);
  (* 12997-13009; 1412 *) (Inst "orq" [K64; KI32] (Some (Digit 1, 0)) None [PModRex true; PByte 129; PModRM; PSib; PDisp; PImm 1],
    [TRexW; TByte 129; TDigit 1 0; TImm 4 1]);
  (* 13012-13024; 1412 *) (Inst "orq" [KMem; KI32] (Some (Digit 1, 0)) None [PModRex true; PByte 129; PModRM; PSib; PDisp; PImm 1],
    [TRexW; TByte 129; TDigit 1 0; TImm 4 1]);
  (* 13027-13035; 1413 *) (Inst "orq" [KFixed FRax; KI32] None None [PRex true; PByte 13; PImm 1],
    [TRexW; TByte 13; TImm 4 1]);
  (* 13040-13052; 1418 *) (Inst "orw" [K16; K16] (Some (Op 0, 1)) None [PByte 102; PModRex false; PByte 11; PModRM; PSib; PDisp],
    [TByte 102; TByte 11; TSlash 0 1]);
  (* 13055-13067; 1418 *) (Inst "orw" [K16; KMem] (Some (Op 0, 1)) None [PByte 102; PModRex false; PByte 11; PModRM; PSib; PDisp],
    [TByte 102; TByte 11; TSlash 0 1]);
  (* 13070-13082; 1419 *) (Inst "orw" [KMem; K16] (Some (Op 1, 0)) None [PByte 102; PModRex false; PByte 9; PModRM; PSib; PDisp],
    [TByte 102; TByte 9; TSlash 1 0]);
  (* 13085-13098; 1420 *) (Inst "orw" [K16; KI8] (Some (Digit 1, 0)) None [PByte 102; PModRex false; PByte 131; PModRM; PSib; PDisp; PImm 1],
    [TByte 102; TByte 131; TDigit 1 0; TImm 1 1]);
  (* 13101-13114; 1420 *) (Inst "orw" [KMem; KI8] (Some (Digit 1, 0)) None [PByte 102; PModRex false; PByte 131; PModRM; PSib; PDisp; PImm 1],
    [TByte 102; TByte 131; TDigit 1 0; TImm 1 1]);
  (* 13117-13130; 1421 *) (Inst "orw" [K16; KI16] (Some (Digit 1, 0)) None [PByte 102; PModRex false; PByte 129; PModRM; PSib; PDisp; PImm 1],
    [TByte 102; TByte 129; TDigit 1 0; TImm 2 1]);
  (* 13133-13146; 1421 *) (Inst "orw" [KMem; KI16] (Some (Digit 1, 0)) None [PByte 102; PModRex false; PByte 129; PModRM; PSib; PDisp; PImm 1],
    [TByte 102; TByte 129; TDigit 1 0; TImm 2 1]);
  (* 13149-13157; 1422 *) (Inst "orw" [KFixed FAx; KI16] None None [PByte 102; PByte 13; PImm 1],
    [TByte 102; TByte 13; TImm 2 1]);
  (* 13162-13169; 1427 *) (Inst "outb" [KI8; KFixed FAl] None None [PByte 230; PImm 0],
    [TByte 230; TImm 1 0]);
  (* 13172-13178; 1428 *) (Inst "outb" [KFixed FDx; KFixed FAl] None None [PByte 238],
    [TByte 238]);
  (* 13183-13190; 1433 *) (Inst "outl" [KI8; KFixed FEax] None None [PByte 231; PImm 0],
    [TByte 231; TImm 1 0]);
  (* 13193-13199; 1434 *) (Inst "outl" [KFixed FDx; KFixed FEax] None None [PByte 239],
    [TByte 239]);
  (* 13204-13212; 1439 *) (Inst "outw" [KI8; KFixed FAx] None None [PByte 102; PByte 231; PImm 0],
    [TByte 102; TByte 231; TImm 1 0]);
  (* 13215-13222; 1440 *) (Inst "outw" [KFixed FDx; KFixed FAx] None None [PByte 102; PByte 239],
    [TByte 102; TByte 239]);
  (* 13227-13240; 1445 *) (Inst "packssdw" [KX; KX] (Some (Op 0, 1)) None [PByte 102; PModRex false; PByte 15; PByte 107; PModRM; PSib; PDisp],
    [TByte 102; TByte 15; TByte 107; TSlash 0 1]);
  (* 13243-13256; 1445 *) (Inst "packssdw" [KX; KMem] (Some (Op 0, 1)) None [PByte 102; PModRex false; PByte 15; PByte 107; PModRM; PSib; PDisp],
    [TByte 102; TByte 15; TByte 107; TSlash 0 1]);
  (* 13261-13274; 1450 *) (Inst "packsswb" [KX; KX] (Some (Op 0, 1)) None [PByte 102; PModRex false; PByte 15; PByte 99; PModRM; PSib; PDisp],
    [TByte 102; TByte 15; TByte 99; TSlash 0 1]);
  (* 13277-13290; 1450 *) (Inst "packsswb" [KX; KMem] (Some (Op 0, 1)) None [PByte 102; PModRex false; PByte 15; PByte 99; PModRM; PSib; PDisp],
    [TByte 102; TByte 15; TByte 99; TSlash 0 1]);
  (* 13295-13309; 1455 *) (Inst "packusdw" [KX; KX] (Some (Op 0, 1)) None [PByte 102; PModRex false; PByte 15; PByte 56; PByte 43; PModRM; PSib; PDisp],
    [TByte 102; TByte 15; TByte 56; TByte 43; TSlash 0 1]);
  (* 13312-13326; 1455 *) (Inst "packusdw" [KX; KMem] (Some (Op 0, 1)) None [PByte 102; PModRex false; PByte 15; PByte 56; PByte 43; PModRM; PSib; PDisp],
    [TByte 102; TByte 15; TByte 56; TByte 43; TSlash 0 1]);
  (* 13331-13344; 1460 *) (Inst "packuswb" [KX; KX] (Some (Op 0, 1)) None [PByte 102; PModRex false; PByte 15; PByte 103; PModRM; PSib; PDisp],
    [TByte 102; TByte 15; TByte 103; TSlash 0 1]);
  (* 13347-13360; 1460 *) (Inst "packuswb" [KX; KMem] (Some (Op 0, 1)) None [PByte 102; PModRex false; PByte 15; PByte 103; PModRM; PSib; PDisp],
    [TByte 102; TByte 15; TByte 103; TSlash 0 1]);
  (* 13365-13378; 1465 *) (Inst "paddb" [KX; KX] (Some (Op 0, 1)) None [PByte 102; PModRex false; PByte 15; PByte 252; PModRM; PSib; PDisp],
    [TByte 102; TByte 15; TByte 252; TSlash 0 1]);
  (* 13381-13394; 1465 *) (Inst "paddb" [KX; KMem] (Some (Op 0, 1)) None [PByte 102; PModRex false; PByte 15; PByte 252; PModRM; PSib; PDisp],
    [TByte 102; TByte 15; TByte 252; TSlash 0 1]);
  (* 13399-13412; 1470 *) (Inst "paddd" [KX; KX] (Some (Op 0, 1)) None [PByte 102; PModRex false; PByte 15; PByte 254; PModRM; PSib; PDisp],
    [TByte 102; TByte 15; TByte 254; TSlash 0 1]);
  (* 13415-13428; 1470 *) (Inst "paddd" [KX; KMem] (Some (Op 0, 1)) None [PByte 102; PModRex false; PByte 15; PByte 254; PModRM; PSib; PDisp],
    [TByte 102; TByte 15; TByte 254; TSlash 0 1]);
  (* 13433-13446; 1475 *) (Inst "paddq" [KX; KX] (Some (Op 0, 1)) None [PByte 102; PModRex false; PByte 15; PByte 212; PModRM; PSib; PDisp],
    [TByte 102; TByte 15; TByte 212; TSlash 0 1]);
  (* 13449-13462; 1475 *) (Inst "paddq" [KX; KMem] (Some (Op 0, 1)) None [PByte 102; PModRex false; PByte 15; PByte 212; PModRM; PSib; PDisp],
    [TByte 102; TByte 15; TByte 212; TSlash 0 1]);
  (* 13467-13480; 1480 *) (Inst "paddsb" [KX; KX] (Some (Op 0, 1)) None [PByte 102; PModRex false; PByte 15; PByte 236; PModRM; PSib; PDisp],
    [TByte 102; TByte 15; TByte 236; TSlash 0 1]);
  (* 13483-13496; 1480 *) (Inst "paddsb" [KX; KMem] (Some (Op 0, 1)) None [PByte 102; PModRex false; PByte 15; PByte 236; PModRM; PSib; PDisp],
    [TByte 102; TByte 15; TByte 236; TSlash 0 1]);
  (* 13501-13514; 1485 *) (Inst "paddsw" [KX; KX] (Some (Op 0, 1)) None [PByte 102; PModRex false; PByte 15; PByte 237; PModRM; PSib; PDisp],
    [TByte 102; TByte 15; TByte 237; TSlash 0 1]);
  (* 13517-13530; 1485 *) (Inst "paddsw" [KX; KMem] (Some (Op 0, 1)) None [PByte 102; PModRex false; PByte 15; PByte 237; PModRM; PSib; PDisp],
    [TByte 102; TByte 15; TByte 237; TSlash 0 1]);
  (* 13535-13548; 1490 *) (Inst "paddusb" [KX; KX] (Some (Op 0, 1)) None [PByte 102; PModRex false; PByte 15; PByte 220; PModRM; PSib; PDisp],
    [TByte 102; TByte 15; TByte 220; TSlash 0 1]);
  (* 13551-13564; 1490 *) (Inst "paddusb" [KX; KMem] (Some (Op 0, 1)) None [PByte 102; PModRex false; PByte 15; PByte 220; PModRM; PSib; PDisp],
    [TByte 102; TByte 15; TByte 220; TSlash 0 1]);
  (* 13569-13582; 1495 *) (Inst "paddusw" [KX; KX] (Some (Op 0, 1)) None [PByte 102; PModRex false; PByte 15; PByte 221; PModRM; PSib; PDisp],
    [TByte 102; TByte 15; TByte 221; TSlash 0 1]);
  (* 13585-13598; 1495 *) (Inst "paddusw" [KX; KMem] (Some (Op 0, 1)) None [PByte 102; PModRex false; PByte 15; PByte 221; PModRM; PSib; PDisp],
    [TByte 102; TByte 15; TByte 221; TSlash 0 1]);
  (* 13603-13616; 1500 *) (Inst "paddw" [KX; KX] (Some (Op 0, 1)) None [PByte 102; PModRex false; PByte 15; PByte 253; PModRM; PSib; PDisp],
    [TByte 102; TByte 15; TByte 253; TSlash 0 1]);
  (* 13619-13632; 1500 *) (Inst "paddw" [KX; KMem] (Some (Op 0, 1)) None [PByte 102; PModRex false; PByte 15; PByte 253; PModRM; PSib; PDisp],
    [TByte 102; TByte 15; TByte 253; TSlash 0 1]);
  (* 13637-13650; 1505 *) (Inst "pand" [KX; KX] (Some (Op 0, 1)) None [PByte 102; PModRex false; PByte 15; PByte 219; PModRM; PSib; PDisp],
    [TByte 102; TByte 15; TByte 219; TSlash 0 1]);
  (* 13653-13666; 1505 *) (Inst "pand" [KX; KMem] (Some (Op 0, 1)) None [PByte 102; PModRex false; PByte 15; PByte 219; PModRM; PSib; PDisp],
    [TByte 102; TByte 15; TByte 219; TSlash 0 1]);
  (* 13671-13684; 1510 *) (Inst "pandn" [KX; KX] (Some (Op 0, 1)) None [PByte 102; PModRex false; PByte 15; PByte 223; PModRM; PSib; PDisp],
    [TByte 102; TByte 15; TByte 223; TSlash 0 1]);
  (* 13687-13700; 1510 *) (Inst "pandn" [KX; KMem] (Some (Op 0, 1)) None [PByte 102; PModRex false; PByte 15; PByte 223; PModRM; PSib; PDisp],
    [TByte 102; TByte 15; TByte 223; TSlash 0 1]);
  (* 13705-13712; 1515 *) (Inst "pause" [] None None [PByte 243; PByte 144],
    [TByte 243; TByte 144]);
  (* 13717-13730; 1520 *) (Inst "pavgb" [KX; KX] (Some (Op 0, 1)) None [PByte 102; PModRex false; PByte 15; PByte 224; PModRM; PSib; PDisp],
    [TByte 102; TByte 15; TByte 224; TSlash 0 1]);
  (* 13733-13746; 1520 *) (Inst "pavgb" [KX; KMem] (Some (Op 0, 1)) None [PByte 102; PModRex false; PByte 15; PByte 224; PModRM; PSib; PDisp],
    [TByte 102; TByte 15; TByte 224; TSlash 0 1]);
  (* 13751-13764; 1525 *) (Inst "pavgw" [KX; KX] (Some (Op 0, 1)) None [PByte 102; PModRex false; PByte 15; PByte 227; PModRM; PSib; PDisp],
    [TByte 102; TByte 15; TByte 227; TSlash 0 1]);
  (* 13767-13780; 1525 *) (Inst "pavgw" [KX; KMem] (Some (Op 0, 1)) None [PByte 102; PModRex false; PByte 15; PByte 227; PModRM; PSib; PDisp],
    [TByte 102; TByte 15; TByte 227; TSlash 0 1]);
  (* 13785-13799; 1530 *) (Inst "pblendvb" [KX; KX; KFixed FXmm0] (Some (Op 0, 1)) None [PByte 102; PModRex false; PByte 15; PByte 56; PByte 16; PModRM; PSib; PDisp],
    [TByte 102; TByte 15; TByte 56; TByte 16; TSlash 0 1]);
  (* 13802-13816; 1530 *) (Inst "pblendvb" [KX; KMem; KFixed FXmm0] (Some (Op 0, 1)) None [PByte 102; PModRex false; PByte 15; PByte 56; PByte 16; PModRM; PSib; PDisp],
    [TByte 102; TByte 15; TByte 56; TByte 16; TSlash 0 1]);
  (* 13821-13836; 1535 *) (Inst "pblendw" [KX; KX; KI8] (Some (Op 0, 1)) None [PByte 102; PModRex false; PByte 15; PByte 58; PByte 14; PModRM; PSib; PDisp; PImm 2],
    [TByte 102; TByte 15; TByte 58; TByte 14; TSlash 0 1; TImm 1 2]);
  (* 13839-13854; 1535 *) (Inst "pblendw" [KX; KMem; KI8] (Some (Op 0, 1)) None [PByte 102; PModRex false; PByte 15; PByte 58; PByte 14; PModRM; PSib; PDisp; PImm 2],
    [TByte 102; TByte 15; TByte 58; TByte 14; TSlash 0 1; TImm 1 2]);
  (* 13859-13872; 1540 *) (Inst "pcmpeqb" [KX; KX] (Some (Op 0, 1)) None [PByte 102; PModRex false; PByte 15; PByte 116; PModRM; PSib; PDisp],
    [TByte 102; TByte 15; TByte 116; TSlash 0 1]);
  (* 13875-13888; 1540 *) (Inst "pcmpeqb" [KX; KMem] (Some (Op 0, 1)) None [PByte 102; PModRex false; PByte 15; PByte 116; PModRM; PSib; PDisp],
    [TByte 102; TByte 15; TByte 116; TSlash 0 1]);
  (* 13893-13906; 1545 *) (Inst "pcmpeqd" [KX; KX] (Some (Op 0, 1)) None [PByte 102; PModRex false; PByte 15; PByte 118; PModRM; PSib; PDisp],
    [TByte 102; TByte 15; TByte 118; TSlash 0 1]);
  (* 13909-13922; 1545 *) (Inst "pcmpeqd" [KX; KMem] (Some (Op 0, 1)) None [PByte 102; PModRex false; PByte 15; PByte 118; PModRM; PSib; PDisp],
    [TByte 102; TByte 15; TByte 118; TSlash 0 1]);
  (* 13927-13941; 1550 *) (Inst "pcmpeqq" [KX; KX] (Some (Op 0, 1)) None [PByte 102; PModRex false; PByte 15; PByte 56; PByte 41; PModRM; PSib; PDisp],
    [TByte 102; TByte 15; TByte 56; TByte 41; TSlash 0 1]);
  (* 13944-13958; 1550 *) (Inst "pcmpeqq" [KX; KMem] (Some (Op 0, 1)) None [PByte 102; PModRex false; PByte 15; PByte 56; PByte 41; PModRM; PSib; PDisp],
    [TByte 102; TByte 15; TByte 56; TByte 41; TSlash 0 1]);
  (* 13963-13976; 1555 *) (Inst "pcmpeqw" [KX; KX] (Some (Op 0, 1)) None [PByte 102; PModRex false; PByte 15; PByte 117; PModRM; PSib; PDisp],
    [TByte 102; TByte 15; TByte 117; TSlash 0 1]);
  (* 13979-13992; 1555 *) (Inst "pcmpeqw" [KX; KMem] (Some (Op 0, 1)) None [PByte 102; PModRex false; PByte 15; PByte 117; PModRM; PSib; PDisp],
    [TByte 102; TByte 15; TByte 117; TSlash 0 1]);
  (* 13997-14012; 1560 *) (Inst "pcmpestri" [KX; KX; KI8] (Some (Op 0, 1)) None [PByte 102; PModRex false; PByte 15; PByte 58; PByte 97; PModRM; PSib; PDisp; PImm 2],
    [TByte 102; TByte 15; TByte 58; TByte 97; TSlash 0 1; TImm 1 2]);
  (* 14015-14030; 1560 *) (Inst "pcmpestri" [KX; KMem; KI8] (Some (Op 0, 1)) None [PByte 102; PModRex false; PByte 15; PByte 58; PByte 97; PModRM; PSib; PDisp; PImm 2],
    [TByte 102; TByte 15; TByte 58; TByte 97; TSlash 0 1; TImm 1 2]);
  (* 14035-14050; 1565 *) (Inst "pcmpestrm" [KX; KX; KI8] (Some (Op 0, 1)) None [PByte 102; PModRex false; PByte 15; PByte 58; PByte 96; PModRM; PSib; PDisp; PImm 2],
    [TByte 102; TByte 15; TByte 58; TByte 96; TSlash 0 1; TImm 1 2]);
  (* 14053-14068; 1565 *) (Inst "pcmpestrm" [KX; KMem; KI8] (Some (Op 0, 1)) None [PByte 102; PModRex false; PByte 15; PByte 58; PByte 96; PModRM; PSib; PDisp; PImm 2],
    [TByte 102; TByte 15; TByte 58; TByte 96; TSlash 0 1; TImm 1 2]);
  (* 14073-14086; 1570 *) (Inst "pcmpgtb" [KX; KX] (Some (Op 0, 1)) None [PByte 102; PModRex false; PByte 15; PByte 100; PModRM; PSib; PDisp],
    [TByte 102; TByte 15; TByte 100; TSlash 0 1]);
  (* 14089-14102; 1570 *) (Inst "pcmpgtb" [KX; KMem] (Some (Op 0, 1)) None [PByte 102; PModRex false; PByte 15; PByte 100; PModRM; PSib; PDisp],
    [TByte 102; TByte 15; TByte 100; TSlash 0 1])].

Definition table7 : list (inst * list token) := [
  (* 14107-14120; 1575 *) (Inst "pcmpgtd" [KX; KX] (Some (Op 0, 1)) None [PByte 102; PModRex false; PByte 15; PByte 102; PModRM; PSib; PDisp],
    [TByte 102; TByte 15; TByte 102; TSlash 0 1]);
  (* 14123-14136; 1575 *) (Inst "pcmpgtd" [KX; KMem] (Some (Op 0, 1)) None [PByte 102; PModRex false; PByte 15; PByte 102; PModRM; PSib; PDisp],
    [TByte 102; TByte 15; TByte 102; TSlash 0 1]);
  (* 14141-14155; 1580 *) (Inst "pcmpgtq" [KX; KX] (Some (Op 0, 1)) None [PByte 102; PModRex false; PByte 15; PByte 56; PByte 55; PModRM; PSib; PDisp],
    [TByte 102; TByte 15; TByte 56; TByte 55; TSlash 0 1]);
  (* 14158-14172; 1580 *) (Inst "pcmpgtq" [KX; KMem] (Some (Op 0, 1)) None [PByte 102; PModRex false; PByte 15; PByte 56; PByte 55; PModRM; PSib; PDisp],
    [TByte 102; TByte 15; TByte 56; TByte 55; TSlash 0 1]);
  (* 14177-14190; 1585 *) (Inst "pcmpgtw" [KX; KX] (Some (Op 0, 1)) None [PByte 102; PModRex false; PByte 15; PByte 101; PModRM; PSib; PDisp],
    [TByte 102; TByte 15; TByte 101; TSlash 0 1]);
  (* 14193-14206; 1585 *) (Inst "pcmpgtw" [KX; KMem] (Some (Op 0, 1)) None [PByte 102; PModRex false; PByte 15; PByte 101; PModRM; PSib; PDisp],
    [TByte 102; TByte 15; TByte 101; TSlash 0 1]);
  (* 14211-14226; 1590 *) (Inst "pcmpistri" [KX; KX; KI8] (Some (Op 0, 1)) None [PByte 102; PModRex false; PByte 15; PByte 58; PByte 99; PModRM; PSib; PDisp; PImm 2],
    [TByte 102; TByte 15; TByte 58; TByte 99; TSlash 0 1; TImm 1 2]);
  (* 14229-14244; 1590 *) (Inst "pcmpistri" [KX; KMem; KI8] (Some (Op 0, 1)) None [PByte 102; PModRex false; PByte 15; PByte 58; PByte 99; PModRM; PSib; PDisp; PImm 2],
    [TByte 102; TByte 15; TByte 58; TByte 99; TSlash 0 1; TImm 1 2]);
  (* 14249-14264; 1595 *) (Inst "pcmpistrm" [KX; KX; KI8] (Some (Op 0, 1)) None [PByte 102; PModRex false; PByte 15; PByte 58; PByte 98; PModRM; PSib; PDisp; PImm 2],
    [TByte 102; TByte 15; TByte 58; TByte 98; TSlash 0 1; TImm 1 2]);
  (* 14267-14282; 1595 *) (Inst "pcmpistrm" [KX; KMem; KI8] (Some (Op 0, 1)) None [PByte 102; PModRex false; PByte 15; PByte 58; PByte 98; PModRM; PSib; PDisp; PImm 2],
    [TByte 102; TByte 15; TByte 58; TByte 98; TSlash 0 1; TImm 1 2]);
  (* 14287-14302; 1600 *) (Inst "pextrb" [K64; KX; KI8] (Some (Op 1, 0)) None [PByte 102; PModRex false; PByte 15; PByte 58; PByte 20; PModRM; PSib; PDisp; PImm 2],
    [TByte 102; TByte 15; TByte 58; TByte 20; TSlash 1 0; TImm 1 2]);
  (* 14305-14320; 1600 *) (Inst "pextrb" [KMem; KX; KI8] (Some (Op 1, 0)) None [PByte 102; PModRex false; PByte 15; PByte 58; PByte 20; PModRM; PSib; PDisp; PImm 2],
    [TByte 102; TByte 15; TByte 58; TByte 20; TSlash 1 0; TImm 1 2]);
  (* 14325-14340; 1605 *) (Inst "pextrd" [K32; KX; KI8] (Some (Op 1, 0)) None [PByte 102; PModRex false; PByte 15; PByte 58; PByte 22; PModRM; PSib; PDisp; PImm 2],
    [TByte 102; TByte 15; TByte 58; TByte 22; TSlash 1 0; TImm 1 2]);
  (* 14343-14358; 1605 *) (Inst "pextrd" [KMem; KX; KI8] (Some (Op 1, 0)) None [PByte 102; PModRex false; PByte 15; PByte 58; PByte 22; PModRM; PSib; PDisp; PImm 2],
    [TByte 102; TByte 15; TByte 58; TByte 22; TSlash 1 0; TImm 1 2]);
  (* 14363-14378; 1610 *) (Inst "pextrq" [K64; KX; KI8] (Some (Op 1, 0)) None [PByte 102; PModRex true; PByte 15; PByte 58; PByte 22; PModRM; PSib; PDisp; PImm 2],
    [TByte 102; TRexW; TByte 15; TByte 58; TByte 22; TSlash 1 0; TImm 1 2]);
  (* 14381-14396; 1610 *) (Inst "pextrq" [KMem; KX; KI8] (Some (Op 1, 0)) None [PByte 102; PModRex true; PByte 15; PByte 58; PByte 22; PModRM; PSib; PDisp; PImm 2],
    [TByte 102; TRexW; TByte 15; TByte 58; TByte 22; TSlash 1 0; TImm 1 2]);
  (* 14401-14415; 1615 *) (Inst "pextrw" [K64; KX; KI8] (Some (Op 0, 1)) None [PByte 102; PModRex false; PByte 15; PByte 197; PModRM; PSib; PDisp; PImm 2],
    [TByte 102; TByte 15; TByte 197; TSlash 0 1; TImm 1 2]);
  (* 14418-14433; 1616 *) (Inst "pextrw" [KMem; KX; KI8] (Some (Op 1, 0)) None [PByte 102; PModRex false; PByte 15; PByte 58; PByte 21; PModRM; PSib; PDisp; PImm 2],
    [TByte 102; TByte 15; TByte 58; TByte 21; TSlash 1 0; TImm 1 2]);
  (* 14438-14452; 1621 *) (Inst "phminposuw" [KX; KX] (Some (Op 0, 1)) None [PByte 102; PModRex false; PByte 15; PByte 56; PByte 65; PModRM; PSib; PDisp],
    [TByte 102; TByte 15; TByte 56; TByte 65; TSlash 0 1]);
  (* 14455-14469; 1621 *) (Inst "phminposuw" [KX; KMem] (Some (Op 0, 1)) None [PByte 102; PModRex false; PByte 15; PByte 56; PByte 65; PModRM; PSib; PDisp],
    [TByte 102; TByte 15; TByte 56; TByte 65; TSlash 0 1]);
  (* 14474-14489; 1626 *) (Inst "pinsrb" [KX; K32; KI8] (Some (Op 0, 1)) None [PByte 102; PModRex false; PByte 15; PByte 58; PByte 32; PModRM; PSib; PDisp; PImm 2],
    [TByte 102; TByte 15; TByte 58; TByte 32; TSlash 0 1; TImm 1 2]);
  (* 14492-14507; 1626 *) (Inst "pinsrb" [KX; KMem; KI8] (Some (Op 0, 1)) None [PByte 102; PModRex false; PByte 15; PByte 58; PByte 32; PModRM; PSib; PDisp; PImm 2],
    [TByte 102; TByte 15; TByte 58; TByte 32; TSlash 0 1; TImm 1 2]);
  (* 14512-14527; 1631 *) (Inst "pinsrd" [KX; K32; KI8] (Some (Op 0, 1)) None [PByte 102; PModRex false; PByte 15; PByte 58; PByte 34; PModRM; PSib; PDisp; PImm 2],
    [TByte 102; TByte 15; TByte 58; TByte 34; TSlash 0 1; TImm 1 2]);
  (* 14530-14545; 1631 *) (Inst "pinsrd" [KX; KMem; KI8] (Some (Op 0, 1)) None [PByte 102; PModRex false; PByte 15; PByte 58; PByte 34; PModRM; PSib; PDisp; PImm 2],
    [TByte 102; TByte 15; TByte 58; TByte 34; TSlash 0 1; TImm 1 2]);
  (* 14550-14564; 1636 *) (Inst "pinsrw" [KX; K32; KI8] (Some (Op 0, 1)) None [PByte 102; PModRex false; PByte 15; PByte 196; PModRM; PSib; PDisp; PImm 2],
    [TByte 102; TByte 15; TByte 196; TSlash 0 1; TImm 1 2]);
  (* 14567-14581; 1636 *) (Inst "pinsrw" [KX; KMem; KI8] (Some (Op 0, 1)) None [PByte 102; PModRex false; PByte 15; PByte 196; PModRM; PSib; PDisp; PImm 2],
    [TByte 102; TByte 15; TByte 196; TSlash 0 1; TImm 1 2]);
  (* 14586-14599; 1641 *) (Inst "pmaddwd" [KX; KX] (Some (Op 0, 1)) None [PByte 102; PModRex false; PByte 15; PByte 245; PModRM; PSib; PDisp],
    [TByte 102; TByte 15; TByte 245; TSlash 0 1]);
  (* 14602-14615; 1641 *) (Inst "pmaddwd" [KX; KMem] (Some (Op 0, 1)) None [PByte 102; PModRex false; PByte 15; PByte 245; PModRM; PSib; PDisp],
    [TByte 102; TByte 15; TByte 245; TSlash 0 1]);
  (* 14620-14634; 1646 *) (Inst "pmaxsb" [KX; KX] (Some (Op 0, 1)) None [PByte 102; PModRex false; PByte 15; PByte 56; PByte 60; PModRM; PSib; PDisp],
    [TByte 102; TByte 15; TByte 56; TByte 60; TSlash 0 1]);
  (* 14637-14651; 1646 *) (Inst "pmaxsb" [KX; KMem] (Some (Op 0, 1)) None [PByte 102; PModRex false; PByte 15; PByte 56; PByte 60; PModRM; PSib; PDisp],
    [TByte 102; TByte 15; TByte 56; TByte 60; TSlash 0 1]);
  (* 14656-14670; 1651 *) (Inst "pmaxsd" [KX; KX] (Some (Op 0, 1)) None [PByte 102; PModRex false; PByte 15; PByte 56; PByte 61; PModRM; PSib; PDisp],
    [TByte 102; TByte 15; TByte 56; TByte 61; TSlash 0 1]);
  (* 14673-14687; 1651 *) (Inst "pmaxsd" [KX; KMem] (Some (Op 0, 1)) None [PByte 102; PModRex false; PByte 15; PByte 56; PByte 61; PModRM; PSib; PDisp],
    [TByte 102; TByte 15; TByte 56; TByte 61; TSlash 0 1]);
  (* 14692-14705; 1656 *) (Inst "pmaxsw" [KX; KX] (Some (Op 0, 1)) None [PByte 102; PModRex false; PByte 15; PByte 238; PModRM; PSib; PDisp],
    [TByte 102; TByte 15; TByte 238; TSlash 0 1]);
  (* 14708-14721; 1656 *) (Inst "pmaxsw" [KX; KMem] (Some (Op 0, 1)) None [PByte 102; PModRex false; PByte 15; PByte 238; PModRM; PSib; PDisp],
    [TByte 102; TByte 15; TByte 238; TSlash 0 1]);
  (* 14726-14739; 1661 *) (Inst "pmaxub" [KX; KX] (Some (Op 0, 1)) None [PByte 102; PModRex false; PByte 15; PByte 222; PModRM; PSib; PDisp],
    [TByte 102; TByte 15; TByte 222; TSlash 0 1]);
  (* 14742-14755; 1661 *) (Inst "pmaxub" [KX; KMem] (Some (Op 0, 1)) None [PByte 102; PModRex false; PByte 15; PByte 222; PModRM; PSib; PDisp],
    [TByte 102; TByte 15; TByte 222; TSlash 0 1]);
  (* 14760-14774; 1666 *) (Inst "pmaxud" [KX; KX] (Some (Op 0, 1)) None [PByte 102; PModRex false; PByte 15; PByte 56; PByte 63; PModRM; PSib; PDisp],
    [TByte 102; TByte 15; TByte 56; TByte 63; TSlash 0 1]);
  (* 14777-14791; 1666 *) (Inst "pmaxud" [KX; KMem] (Some (Op 0, 1)) None [PByte 102; PModRex false; PByte 15; PByte 56; PByte 63; PModRM; PSib; PDisp],
    [TByte 102; TByte 15; TByte 56; TByte 63; TSlash 0 1]);
  (* 14796-14810; 1671 *) (Inst "pmaxuw" [KX; KX] (Some (Op 0, 1)) None [PByte 102; PModRex false; PByte 15; PByte 56; PByte 62; PModRM; PSib; PDisp],
    [TByte 102; TByte 15; TByte 56; TByte 62; TSlash 0 1]);
  (* 14813-14827; 1671 *) (Inst "pmaxuw" [KX; KMem] (Some (Op 0, 1)) None [PByte 102; PModRex false; PByte 15; PByte 56; PByte 62; PModRM; PSib; PDisp],
    [TByte 102; TByte 15; TByte 56; TByte 62; TSlash 0 1]);
  (* 14832-14845; 1676 *) (Inst "pminsb" [KX; KX] (Some (Op 0, 1)) None [PByte 102; PModRex false; PByte 15; PByte 56; PModRM; PSib; PDisp],
    [TByte 102; TByte 15; TByte 56; TSlash 0 1]);
  (* 14848-14861; 1676 *) (Inst "pminsb" [KX; KMem] (Some (Op 0, 1)) None [PByte 102; PModRex false; PByte 15; PByte 56; PModRM; PSib; PDisp],
    [TByte 102; TByte 15; TByte 56; TSlash 0 1]);
  (* 14866-14880; 1681 *) (Inst "pminsd" [KX; KX] (Some (Op 0, 1)) None [PByte 102; PModRex false; PByte 15; PByte 56; PByte 57; PModRM; PSib; PDisp],
    [TByte 102; TByte 15; TByte 56; TByte 57; TSlash 0 1]);
  (* 14883-14897; 1681 *) (Inst "pminsd" [KX; KMem] (Some (Op 0, 1)) None [PByte 102; PModRex false; PByte 15; PByte 56; PByte 57; PModRM; PSib; PDisp],
    [TByte 102; TByte 15; TByte 56; TByte 57; TSlash 0 1]);
  (* 14902-14915; 1686 *) (Inst "pminsw" [KX; KX] (Some (Op 0, 1)) None [PByte 102; PModRex false; PByte 15; PByte 234; PModRM; PSib; PDisp],
    [TByte 102; TByte 15; TByte 234; TSlash 0 1]);
  (* 14918-14931; 1686 *) (Inst "pminsw" [KX; KMem] (Some (Op 0, 1)) None [PByte 102; PModRex false; PByte 15; PByte 234; PModRM; PSib; PDisp],
    [TByte 102; TByte 15; TByte 234; TSlash 0 1]);
  (* 14936-14949; 1691 *) (Inst "pminub" [KX; KX] (Some (Op 0, 1)) None [PByte 102; PModRex false; PByte 15; PByte 218; PModRM; PSib; PDisp],
    [TByte 102; TByte 15; TByte 218; TSlash 0 1]);
  (* 14952-14965; 1691 *) (Inst "pminub" [KX; KMem] (Some (Op 0, 1)) None [PByte 102; PModRex false; PByte 15; PByte 218; PModRM; PSib; PDisp],
    [TByte 102; TByte 15; TByte 218; TSlash 0 1]);
  (* 14970-14984; 1696 *) (Inst "pminud" [KX; KX] (Some (Op 0, 1)) None [PByte 102; PModRex false; PByte 15; PByte 56; PByte 59; PModRM; PSib; PDisp],
    [TByte 102; TByte 15; TByte 56; TByte 59; TSlash 0 1]);
  (* 14987-15001; 1696 *) (Inst "pminud" [KX; KMem] (Some (Op 0, 1)) None [PByte 102; PModRex false; PByte 15; PByte 56; PByte 59; PModRM; PSib; PDisp],
    [TByte 102; TByte 15; TByte 56; TByte 59; TSlash 0 1]);
  (* 15006-15020; 1701 *) (Inst "pminuw" [KX; KX] (Some (Op 0, 1)) None [PByte 102; PModRex false; PByte 15; PByte 56; PByte 58; PModRM; PSib; PDisp],
    [TByte 102; TByte 15; TByte 56; TByte 58; TSlash 0 1]);
  (* 15023-15037; 1701 *) (Inst "pminuw" [KX; KMem] (Some (Op 0, 1)) None [PByte 102; PModRex false; PByte 15; PByte 56; PByte 58; PModRM; PSib; PDisp],
    [TByte 102; TByte 15; TByte 56; TByte 58; TSlash 0 1]);
  (* 15042-15055; 1706 *) (Inst "pmovmskb" [K64; KX] (Some (Op 0, 1)) None [PByte 102; PModRex false; PByte 15; PByte 215; PModRM; PSib; PDisp],
    [TByte 102; TByte 15; TByte 215; TSlash 0 1]);
  (* 15060-15074; 1711 *) (Inst "pmovsxbd" [KX; KX] (Some (Op 0, 1)) None [PByte 102; PModRex false; PByte 15; PByte 56; PByte 33; PModRM; PSib; PDisp],
    [TByte 102; TByte 15; TByte 56; TByte 33; TSlash 0 1]);
  (* 15077-15091; 1711 *) (Inst "pmovsxbd" [KX; KMem] (Some (Op 0, 1)) None [PByte 102; PModRex false; PByte 15; PByte 56; PByte 33; PModRM; PSib; PDisp],
    [TByte 102; TByte 15; TByte 56; TByte 33; TSlash 0 1]);
  (* 15096-15110; 1716 *) (Inst "pmovsxbq" [KX; KX] (Some (Op 0, 1)) None [PByte 102; PModRex false; PByte 15; PByte 56; PByte 34; PModRM; PSib; PDisp],
    [TByte 102; TByte 15; TByte 56; TByte 34; TSlash 0 1]);
  (* 15113-15127; 1716 *) (Inst "pmovsxbq" [KX; KMem] (Some (Op 0, 1)) None [PByte 102; PModRex false; PByte 15; PByte 56; PByte 34; PModRM; PSib; PDisp],
    [TByte 102; TByte 15; TByte 56; TByte 34; TSlash 0 1]);
  (* 15132-15146; 1721 *) (Inst "pmovsxbw" [KX; KX] (Some (Op 0, 1)) None [PByte 102; PModRex false; PByte 15; PByte 56; PByte 32; PModRM; PSib; PDisp],
    [TByte 102; TByte 15; TByte 56; TByte 32; TSlash 0 1]);
  (* 15149-15163; 1721 *) (Inst "pmovsxbw" [KX; KMem] (Some (Op 0, 1)) None [PByte 102; PModRex false; PByte 15; PByte 56; PByte 32; PModRM; PSib; PDisp],
    [TByte 102; TByte 15; TByte 56; TByte 32; TSlash 0 1]);
  (* 15168-15182; 1726 *) (Inst "pmovsxdq" [KX; KX] (Some (Op 0, 1)) None [PByte 102; PModRex false; PByte 15; PByte 56; PByte 37; PModRM; PSib; PDisp],
    [TByte 102; TByte 15; TByte 56; TByte 37; TSlash 0 1]);
  (* 15185-15199; 1726 *) (Inst "pmovsxdq" [KX; KMem] (Some (Op 0, 1)) None [PByte 102; PModRex false; PByte 15; PByte 56; PByte 37; PModRM; PSib; PDisp],
    [TByte 102; TByte 15; TByte 56; TByte 37; TSlash 0 1]);
  (* 15204-15218; 1731 *) (Inst "pmovsxwd" [KX; KX] (Some (Op 0, 1)) None [PByte 102; PModRex false; PByte 15; PByte 56; PByte 35; PModRM; PSib; PDisp],
    [TByte 102; TByte 15; TByte 56; TByte 35; TSlash 0 1]);
  (* 15221-15235; 1731 *) (Inst "pmovsxwd" [KX; KMem] (Some (Op 0, 1)) None [PByte 102; PModRex false; PByte 15; PByte 56; PByte 35; PModRM; PSib; PDisp],
    [TByte 102; TByte 15; TByte 56; TByte 35; TSlash 0 1]);
  (* 15240-15254; 1736 *) (Inst "pmovsxwq" [KX; KX] (Some (Op 0, 1)) None [PByte 102; PModRex false; PByte 15; PByte 56; PByte 36; PModRM; PSib; PDisp],
    [TByte 102; TByte 15; TByte 56; TByte 36; TSlash 0 1]);
  (* 15257-15271; 1736 *) (Inst "pmovsxwq" [KX; KMem] (Some (Op 0, 1)) None [PByte 102; PModRex false; PByte 15; PByte 56; PByte 36; PModRM; PSib; PDisp],
    [TByte 102; TByte 15; TByte 56; TByte 36; TSlash 0 1]);
  (* 15276-15290; 1741 *) (Inst "pmovzxbd" [KX; KX] (Some (Op 0, 1)) None [PByte 102; PModRex false; PByte 15; PByte 56; PByte 49; PModRM; PSib; PDisp],
    [TByte 102; TByte 15; TByte 56; TByte 49; TSlash 0 1]);
  (* 15293-15307; 1741 *) (Inst "pmovzxbd" [KX; KMem] (Some (Op 0, 1)) None [PByte 102; PModRex false; PByte 15; PByte 56; PByte 49; PModRM; PSib; PDisp],
    [TByte 102; TByte 15; TByte 56; TByte 49; TSlash 0 1]);
  (* 15312-15326; 1746 *) (Inst "pmovzxbq" [KX; KX] (Some (Op 0, 1)) None [PByte 102; PModRex false; PByte 15; PByte 56; PByte 50; PModRM; PSib; PDisp],
    [TByte 102; TByte 15; TByte 56; TByte 50; TSlash 0 1]);
  (* 15329-15343; 1746 *) (Inst "pmovzxbq" [KX; KMem] (Some (Op 0, 1)) None [PByte 102; PModRex false; PByte 15; PByte 56; PByte 50; PModRM; PSib; PDisp],
    [TByte 102; TByte 15; TByte 56; TByte 50; TSlash 0 1]);
  (* 15348-15362; 1751 *) (Inst "pmovzxbw" [KX; KX] (Some (Op 0, 1)) None [PByte 102; PModRex false; PByte 15; PByte 56; PByte 48; PModRM; PSib; PDisp],
    [TByte 102; TByte 15; TByte 56; TByte 48; TSlash 0 1]);
  (* 15365-15379; 1751 *) (Inst "pmovzxbw" [KX; KMem] (Some (Op 0, 1)) None [PByte 102; PModRex false; PByte 15; PByte 56; PByte 48; PModRM; PSib; PDisp],
    [TByte 102; TByte 15; TByte 56; TByte 48; TSlash 0 1]);
  (* 15384-15398; 1756 *) (Inst "pmovzxdq" [KX; KX] (Some (Op 0, 1)) None [PByte 102; PModRex false; PByte 15; PByte 56; PByte 53; PModRM; PSib; PDisp],
    [TByte 102; TByte 15; TByte 56; TByte 53; TSlash 0 1]);
  (* 15401-15415; 1756 *) (Inst "pmovzxdq" [KX; KMem] (Some (Op 0, 1)) None [PByte 102; PModRex false; PByte 15; PByte 56; PByte 53; PModRM; PSib; PDisp],
    [TByte 102; TByte 15; TByte 56; TByte 53; TSlash 0 1]);
  (* 15420-15434; 1761 *) (Inst "pmovzxwd" [KX; KX] (Some (Op 0, 1)) None [PByte 102; PModRex false; PByte 15; PByte 56; PByte 51; PModRM; PSib; PDisp],
    [TByte 102; TByte 15; TByte 56; TByte 51; TSlash 0 1]);
  (* 15437-15451; 1761 *) (Inst "pmovzxwd" [KX; KMem] (Some (Op 0, 1)) None [PByte 102; PModRex false; PByte 15; PByte 56; PByte 51; PModRM; PSib; PDisp],
    [TByte 102; TByte 15; TByte 56; TByte 51; TSlash 0 1]);
  (* 15456-15470; 1766 *) (Inst "pmovzxwq" [KX; KX] (Some (Op 0, 1)) None [PByte 102; PModRex false; PByte 15; PByte 56; PByte 52; PModRM; PSib; PDisp],
    [TByte 102; TByte 15; TByte 56; TByte 52; TSlash 0 1]);
  (* 15473-15487; 1766 *) (Inst "pmovzxwq" [KX; KMem] (Some (Op 0, 1)) None [PByte 102; PModRex false; PByte 15; PByte 56; PByte 52; PModRM; PSib; PDisp],
    [TByte 102; TByte 15; TByte 56; TByte 52; TSlash 0 1]);
  (* 15492-15506; 1771 *) (Inst "pmuldq" [KX; KX] (Some (Op 0, 1)) None [PByte 102; PModRex false; PByte 15; PByte 56; PByte 40; PModRM; PSib; PDisp],
    [TByte 102; TByte 15; TByte 56; TByte 40; TSlash 0 1]);
  (* 15509-15523; 1771 *) (Inst "pmuldq" [KX; KMem] (Some (Op 0, 1)) None [PByte 102; PModRex false; PByte 15; PByte 56; PByte 40; PModRM; PSib; PDisp],
    [TByte 102; TByte 15; TByte 56; TByte 40; TSlash 0 1]);
  (* 15528-15541; 1776 *) (Inst "pmulhuw" [KX; KX] (Some (Op 0, 1)) None [PByte 102; PModRex false; PByte 15; PByte 228; PModRM; PSib; PDisp],
    [TByte 102; TByte 15; TByte 228; TSlash 0 1]);
  (* 15544-15557; 1776 *) (Inst "pmulhuw" [KX; KMem] (Some (Op 0, 1)) None [PByte 102; PModRex false; PByte 15; PByte 228; PModRM; PSib; PDisp],
    [TByte 102; TByte 15; TByte 228; TSlash 0 1]);
  (* 15562-15575; 1781 *) (Inst "pmulhw" [KX; KX] (Some (Op 0, 1)) None [PByte 102; PModRex false; PByte 15; PByte 229; PModRM; PSib; PDisp],
    [TByte 102; TByte 15; TByte 229; TSlash 0 1]);
  (* 15578-15591; 1781 *) (Inst "pmulhw" [KX; KMem] (Some (Op 0, 1)) None [PByte 102; PModRex false; PByte 15; PByte 229; PModRM; PSib; PDisp],
    [TByte 102; TByte 15; TByte 229; TSlash 0 1]);
  (* 15596-15610; 1786 *) (Inst "pmulld" [KX; KX] (Some (Op 0, 1)) None [PByte 102; PModRex false; PByte 15; PByte 56; PByte 64; PModRM; PSib; PDisp],
    [TByte 102; TByte 15; TByte 56; TByte 64; TSlash 0 1]);
  (* 15613-15627; 1786 *) (Inst "pmulld" [KX; KMem] (Some (Op 0, 1)) None [PByte 102; PModRex false; PByte 15; PByte 56; PByte 64; PModRM; PSib; PDisp],
    [TByte 102; TByte 15; TByte 56; TByte 64; TSlash 0 1]);
  (* 15632-15645; 1791 *) (Inst "pmullw" [KX; KX] (Some (Op 0, 1)) None [PByte 102; PModRex false; PByte 15; PByte 213; PModRM; PSib; PDisp],
    [TByte 102; TByte 15; TByte 213; TSlash 0 1]);
  (* 15648-15661; 1791 *) (Inst "pmullw" [KX; KMem] (Some (Op 0, 1)) None [PByte 102; PModRex false; PByte 15; PByte 213; PModRM; PSib; PDisp],
    [TByte 102; TByte 15; TByte 213; TSlash 0 1]);
  (* 15666-15679; 1796 *) (Inst "pmuludq" [KX; KX] (Some (Op 0, 1)) None [PByte 102; PModRex false; PByte 15; PByte 244; PModRM; PSib; PDisp],
    [TByte 102; TByte 15; TByte 244; TSlash 0 1]);
  (* 15682-15695; 1796 *) (Inst "pmuludq" [KX; KMem] (Some (Op 0, 1)) None [PByte 102; PModRex false; PByte 15; PByte 244; PModRM; PSib; PDisp],
    [TByte 102; TByte 15; TByte 244; TSlash 0 1]);
  (* 15700-15713; 1801 *) (Inst "popcntl" [K32; K32] (Some (Op 0, 1)) None [PByte 243; PModRex false; PByte 15; PByte 184; PModRM; PSib; PDisp],
    [TByte 243; TByte 15; TByte 184; TSlash 0 1]);
  (* 15716-15729; 1801 *) (Inst "popcntl" [K32; KMem] (Some (Op 0, 1)) None [PByte 243; PModRex false; PByte 15; PByte 184; PModRM; PSib; PDisp],
    [TByte 243; TByte 15; TByte 184; TSlash 0 1]);
  (* 15734-15747; 1806 *) (Inst "popcntq" [K64; K64] (Some (Op 0, 1)) None [PByte 243; PModRex true; PByte 15; PByte 184; PModRM; PSib; PDisp],
    [TByte 243; TRexW; TByte 15; TByte 184; TSlash 0 1]);
  (* 15750-15763; 1806 *) (Inst "popcntq" [K64; KMem] (Some (Op 0, 1)) None [PByte 243; PModRex true; PByte 15; PByte 184; PModRM; PSib; PDisp],
    [TByte 243; TRexW; TByte 15; TByte 184; TSlash 0 1]);
  (* 15768-15782; 1811 *) (Inst "popcntw" [K16; K16] (Some (Op 0, 1)) None [PByte 243; PByte 102; PModRex false; PByte 15; PByte 184; PModRM; PSib; PDisp],
    [TByte 243; TByte 102; TByte 15; TByte 184; TSlash 0 1]);
  (* 15785-15799; 1811 *) (Inst "popcntw" [K16; KMem] (Some (Op 0, 1)) None [PByte 243; PByte 102; PModRex false; PByte 15; PByte 184; PModRM; PSib; PDisp],
    [TByte 243; TByte 102; TByte 15; TByte 184; TSlash 0 1]);
  (* 15804-15810; 1816 *) (Inst "popfq" [] None None [PByte 157],
    [TByte 157]);
  (* 15815-15822; 1821 *) (Inst "popfw" [] None None [PByte 102; PByte 157],
    [TByte 102; TByte 157]);
  (* 15827-15835; 1826 *) (Inst "popq" [K64] None (Some 0) [PRioRex false; PBytePlus 88],
    [TByte 88; TPlus 0]);
  (* 15838-15849; 1827 *) (Inst "popq" [KMem] (Some (Digit 0, 0)) None [PModRex false; PByte 143; PModRM; PSib; PDisp],
    [TByte 143; TDigit 0 0]);
  (* 15854-15863; 1832 *) (Inst "popw" [K16] None (Some 0) [PByte 102; PRioRex false; PBytePlus 88],
    [TByte 102; TByte 88; TPlus 0])].

Definition table8 : list (inst * list token) := [
  (* 15866-15878; 1833 *) (Inst "popw" [KMem] (Some (Digit 0, 0)) None [PByte 102; PModRex false; PByte 143; PModRM; PSib; PDisp],
    [TByte 102; TByte 143; TDigit 0 0]);
  (* 15883-15896; 1838 *) (Inst "por" [KX; KX] (Some (Op 0, 1)) None [PByte 102; PModRex false; PByte 15; PByte 235; PModRM; PSib; PDisp],
    [TByte 102; TByte 15; TByte 235; TSlash 0 1]);
  (* 15899-15912; 1838 *) (Inst "por" [KX; KMem] (Some (Op 0, 1)) None [PByte 102; PModRex false; PByte 15; PByte 235; PModRM; PSib; PDisp],
    [TByte 102; TByte 15; TByte 235; TSlash 0 1]);
  (* 15917-15930; 1843 *) (Inst "psadbw" [KX; KX] (Some (Op 0, 1)) None [PByte 102; PModRex false; PByte 15; PByte 246; PModRM; PSib; PDisp],
    [TByte 102; TByte 15; TByte 246; TSlash 0 1]);
  (* 15933-15946; 1843 *) (Inst "psadbw" [KX; KMem] (Some (Op 0, 1)) None [PByte 102; PModRex false; PByte 15; PByte 246; PModRM; PSib; PDisp],
    [TByte 102; TByte 15; TByte 246; TSlash 0 1]);
  (* 15951-15965; 1848 *) (Inst "pshufd" [KX; KX; KI8] (Some (Op 0, 1)) None [PByte 102; PModRex false; PByte 15; PByte 112; PModRM; PSib; PDisp; PImm 2],
    [TByte 102; TByte 15; TByte 112; TSlash 0 1; TImm 1 2]);
  (* 15968-15982; 1848 *) (Inst "pshufd" [KX; KMem; KI8] (Some (Op 0, 1)) None [PByte 102; PModRex false; PByte 15; PByte 112; PModRM; PSib; PDisp; PImm 2],
    [TByte 102; TByte 15; TByte 112; TSlash 0 1; TImm 1 2]);
  (* 15987-16001; 1853 *) (Inst "pshufhw" [KX; KX; KI8] (Some (Op 0, 1)) None [PByte 243; PModRex false; PByte 15; PByte 112; PModRM; PSib; PDisp; PImm 2],
    [TByte 243; TByte 15; TByte 112; TSlash 0 1; TImm 1 2]);
  (* 16004-16018; 1853 *) (Inst "pshufhw" [KX; KMem; KI8] (Some (Op 0, 1)) None [PByte 243; PModRex false; PByte 15; PByte 112; PModRM; PSib; PDisp; PImm 2],
    [TByte 243; TByte 15; TByte 112; TSlash 0 1; TImm 1 2]);
  (* 16023-16037; 1858 *) (Inst "pshuflw" [KX; KX; KI8] (Some (Op 0, 1)) None [PByte 242; PModRex false; PByte 15; PByte 112; PModRM; PSib; PDisp; PImm 2],
    [TByte 242; TByte 15; TByte 112; TSlash 0 1; TImm 1 2]);
  (* 16040-16054; 1858 *) (Inst "pshuflw" [KX; KMem; KI8] (Some (Op 0, 1)) None [PByte 242; PModRex false; PByte 15; PByte 112; PModRM; PSib; PDisp; PImm 2],
    [TByte 242; TByte 15; TByte 112; TSlash 0 1; TImm 1 2]);
  (* 16059-16073; 1863 *) (Inst "pslld" [KX; KI8] (Some (Digit 6, 0)) None [PByte 102; PModRex false; PByte 15; PByte 114; PModRM; PSib; PDisp; PImm 1],
    [TByte 102; TByte 15; TByte 114; TDigit 6 0; TImm 1 1]);
  (* 16076-16089; 1864 *) (Inst "pslld" [KX; KX] (Some (Op 0, 1)) None [PByte 102; PModRex false; PByte 15; PByte 242; PModRM; PSib; PDisp],
    [TByte 102; TByte 15; TByte 242; TSlash 0 1]);
  (* 16092-16105; 1864 *) (Inst "pslld" [KX; KMem] (Some (Op 0, 1)) None [PByte 102; PModRex false; PByte 15; PByte 242; PModRM; PSib; PDisp],
    [TByte 102; TByte 15; TByte 242; TSlash 0 1]);
  (* 16110-16124; 1869 *) (Inst "pslldq" [KX; KI8] (Some (Digit 7, 0)) None [PByte 102; PModRex false; PByte 15; PByte 115; PModRM; PSib; PDisp; PImm 1],
    [TByte 102; TByte 15; TByte 115; TDigit 7 0; TImm 1 1]);
  (* 16129-16143; 1874 *) (Inst "psllq" [KX; KI8] (Some (Digit 6, 0)) None [PByte 102; PModRex false; PByte 15; PByte 115; PModRM; PSib; PDisp; PImm 1],
    [TByte 102; TByte 15; TByte 115; TDigit 6 0; TImm 1 1]);
  (* 16146-16159; 1875 *) (Inst "psllq" [KX; KX] (Some (Op 0, 1)) None [PByte 102; PModRex false; PByte 15; PByte 243; PModRM; PSib; PDisp],
    [TByte 102; TByte 15; TByte 243; TSlash 0 1]);
  (* 16162-16175; 1875 *) (Inst "psllq" [KX; KMem] (Some (Op 0, 1)) None [PByte 102; PModRex false; PByte 15; PByte 243; PModRM; PSib; PDisp],
    [TByte 102; TByte 15; TByte 243; TSlash 0 1]);
  (* 16180-16194; 1880 *) (Inst "psllw" [KX; KI8] (Some (Digit 6, 0)) None [PByte 102; PModRex false; PByte 15; PByte 113; PModRM; PSib; PDisp; PImm 1],
    [TByte 102; TByte 15; TByte 113; TDigit 6 0; TImm 1 1]);
  (* 16197-16210; 1881 *) (Inst "psllw" [KX; KX] (Some (Op 0, 1)) None [PByte 102; PModRex false; PByte 15; PByte 241; PModRM; PSib; PDisp],
    [TByte 102; TByte 15; TByte 241; TSlash 0 1]);
  (* 16213-16226; 1881 *) (Inst "psllw" [KX; KMem] (Some (Op 0, 1)) None [PByte 102; PModRex false; PByte 15; PByte 241; PModRM; PSib; PDisp],
    [TByte 102; TByte 15; TByte 241; TSlash 0 1]);
  (* 16231-16245; 1886 *) (Inst "psrad" [KX; KI8] (Some (Digit 4, 0)) None [PByte 102; PModRex false; PByte 15; PByte 114; PModRM; PSib; PDisp; PImm 1],
    [TByte 102; TByte 15; TByte 114; TDigit 4 0; TImm 1 1]);
  (* 16248-16261; 1887 *) (Inst "psrad" [KX; KX] (Some (Op 0, 1)) None [PByte 102; PModRex false; PByte 15; PByte 226; PModRM; PSib; PDisp],
    [TByte 102; TByte 15; TByte 226; TSlash 0 1]);
  (* 16264-16277; 1887 *) (Inst "psrad" [KX; KMem] (Some (Op 0, 1)) None [PByte 102; PModRex false; PByte 15; PByte 226; PModRM; PSib; PDisp],
    [TByte 102; TByte 15; TByte 226; TSlash 0 1]);
  (* 16282-16296; 1892 *) (Inst "psraw" [KX; KI8] (Some (Digit 4, 0)) None [PByte 102; PModRex false; PByte 15; PByte 113; PModRM; PSib; PDisp; PImm 1],
    [TByte 102; TByte 15; TByte 113; TDigit 4 0; TImm 1 1]);
  (* 16299-16312; 1893 *) (Inst "psraw" [KX; KX] (Some (Op 0, 1)) None [PByte 102; PModRex false; PByte 15; PByte 225; PModRM; PSib; PDisp],
    [TByte 102; TByte 15; TByte 225; TSlash 0 1]);
  (* 16315-16328; 1893 *) (Inst "psraw" [KX; KMem] (Some (Op 0, 1)) None [PByte 102; PModRex false; PByte 15; PByte 225; PModRM; PSib; PDisp],
    [TByte 102; TByte 15; TByte 225; TSlash 0 1]);
  (* 16333-16347; 1898 *) (Inst "psrld" [KX; KI8] (Some (Digit 2, 0)) None [PByte 102; PModRex false; PByte 15; PByte 114; PModRM; PSib; PDisp; PImm 1],
    [TByte 102; TByte 15; TByte 114; TDigit 2 0; TImm 1 1]);
  (* 16350-16363; 1899 *) (Inst "psrld" [KX; KX] (Some (Op 0, 1)) None [PByte 102; PModRex false; PByte 15; PByte 210; PModRM; PSib; PDisp],
    [TByte 102; TByte 15; TByte 210; TSlash 0 1]);
  (* 16366-16379; 1899 *) (Inst "psrld" [KX; KMem] (Some (Op 0, 1)) None [PByte 102; PModRex false; PByte 15; PByte 210; PModRM; PSib; PDisp],
    [TByte 102; TByte 15; TByte 210; TSlash 0 1]);
  (* 16384-16398; 1904 *) (Inst "psrldq" [KX; KI8] (Some (Digit 3, 0)) None [PByte 102; PModRex false; PByte 15; PByte 115; PModRM; PSib; PDisp; PImm 1],
    [TByte 102; TByte 15; TByte 115; TDigit 3 0; TImm 1 1]);
  (* 16403-16417; 1909 *) (Inst "psrlq" [KX; KI8] (Some (Digit 2, 0)) None [PByte 102; PModRex false; PByte 15; PByte 115; PModRM; PSib; PDisp; PImm 1],
    [TByte 102; TByte 15; TByte 115; TDigit 2 0; TImm 1 1]);
  (* 16420-16433; 1910 *) (Inst "psrlq" [KX; KX] (Some (Op 0, 1)) None [PByte 102; PModRex false; PByte 15; PByte 211; PModRM; PSib; PDisp],
    [TByte 102; TByte 15; TByte 211; TSlash 0 1]);
  (* 16436-16449; 1910 *) (Inst "psrlq" [KX; KMem] (Some (Op 0, 1)) None [PByte 102; PModRex false; PByte 15; PByte 211; PModRM; PSib; PDisp],
    [TByte 102; TByte 15; TByte 211; TSlash 0 1]);
  (* 16454-16468; 1915 *) (Inst "psrlw" [KX; KI8] (Some (Digit 2, 0)) None [PByte 102; PModRex false; PByte 15; PByte 113; PModRM; PSib; PDisp; PImm 1],
    [TByte 102; TByte 15; TByte 113; TDigit 2 0; TImm 1 1]);
  (* 16471-16484; 1916 *) (Inst "psrlw" [KX; KX] (Some (Op 0, 1)) None [PByte 102; PModRex false; PByte 15; PByte 209; PModRM; PSib; PDisp],
    [TByte 102; TByte 15; TByte 209; TSlash 0 1]);
  (* 16487-16500; 1916 *) (Inst "psrlw" [KX; KMem] (Some (Op 0, 1)) None [PByte 102; PModRex false; PByte 15; PByte 209; PModRM; PSib; PDisp],
    [TByte 102; TByte 15; TByte 209; TSlash 0 1]);
  (* 16505-16518; 1921 *) (Inst "psubb" [KX; KX] (Some (Op 0, 1)) None [PByte 102; PModRex false; PByte 15; PByte 248; PModRM; PSib; PDisp],
    [TByte 102; TByte 15; TByte 248; TSlash 0 1]);
  (* 16521-16534; 1921 *) (Inst "psubb" [KX; KMem] (Some (Op 0, 1)) None [PByte 102; PModRex false; PByte 15; PByte 248; PModRM; PSib; PDisp],
    [TByte 102; TByte 15; TByte 248; TSlash 0 1]);
  (* 16539-16552; 1926 *) (Inst "psubd" [KX; KX] (Some (Op 0, 1)) None [PByte 102; PModRex false; PByte 15; PByte 250; PModRM; PSib; PDisp],
    [TByte 102; TByte 15; TByte 250; TSlash 0 1]);
  (* 16555-16568; 1926 *) (Inst "psubd" [KX; KMem] (Some (Op 0, 1)) None [PByte 102; PModRex false; PByte 15; PByte 250; PModRM; PSib; PDisp],
    [TByte 102; TByte 15; TByte 250; TSlash 0 1]);
  (* 16573-16586; 1931 *) (Inst "psubq" [KX; KX] (Some (Op 0, 1)) None [PByte 102; PModRex false; PByte 15; PByte 251; PModRM; PSib; PDisp],
    [TByte 102; TByte 15; TByte 251; TSlash 0 1]);
  (* 16589-16602; 1931 *) (Inst "psubq" [KX; KMem] (Some (Op 0, 1)) None [PByte 102; PModRex false; PByte 15; PByte 251; PModRM; PSib; PDisp],
    [TByte 102; TByte 15; TByte 251; TSlash 0 1]);
  (* 16607-16620; 1936 *) (Inst "psubsb" [KX; KX] (Some (Op 0, 1)) None [PByte 102; PModRex false; PByte 15; PByte 232; PModRM; PSib; PDisp],
    [TByte 102; TByte 15; TByte 232; TSlash 0 1]);
  (* 16623-16636; 1936 *) (Inst "psubsb" [KX; KMem] (Some (Op 0, 1)) None [PByte 102; PModRex false; PByte 15; PByte 232; PModRM; PSib; PDisp],
    [TByte 102; TByte 15; TByte 232; TSlash 0 1]);
  (* 16641-16654; 1941 *) (Inst "psubsw" [KX; KX] (Some (Op 0, 1)) None [PByte 102; PModRex false; PByte 15; PByte 233; PModRM; PSib; PDisp],
    [TByte 102; TByte 15; TByte 233; TSlash 0 1]);
  (* 16657-16670; 1941 *) (Inst "psubsw" [KX; KMem] (Some (Op 0, 1)) None [PByte 102; PModRex false; PByte 15; PByte 233; PModRM; PSib; PDisp],
    [TByte 102; TByte 15; TByte 233; TSlash 0 1]);
  (* 16675-16688; 1946 *) (Inst "psubusb" [KX; KX] (Some (Op 0, 1)) None [PByte 102; PModRex false; PByte 15; PByte 216; PModRM; PSib; PDisp],
    [TByte 102; TByte 15; TByte 216; TSlash 0 1]);
  (* 16691-16704; 1946 *) (Inst "psubusb" [KX; KMem] (Some (Op 0, 1)) None [PByte 102; PModRex false; PByte 15; PByte 216; PModRM; PSib; PDisp],
    [TByte 102; TByte 15; TByte 216; TSlash 0 1]);
  (* 16709-16722; 1951 *) (Inst "psubusw" [KX; KX] (Some (Op 0, 1)) None [PByte 102; PModRex false; PByte 15; PByte 217; PModRM; PSib; PDisp],
    [TByte 102; TByte 15; TByte 217; TSlash 0 1]);
  (* 16725-16738; 1951 *) (Inst "psubusw" [KX; KMem] (Some (Op 0, 1)) None [PByte 102; PModRex false; PByte 15; PByte 217; PModRM; PSib; PDisp],
    [TByte 102; TByte 15; TByte 217; TSlash 0 1]);
  (* 16743-16756; 1956 *) (Inst "psubw" [KX; KX] (Some (Op 0, 1)) None [PByte 102; PModRex false; PByte 15; PByte 249; PModRM; PSib; PDisp],
    [TByte 102; TByte 15; TByte 249; TSlash 0 1]);
  (* 16759-16772; 1956 *) (Inst "psubw" [KX; KMem] (Some (Op 0, 1)) None [PByte 102; PModRex false; PByte 15; PByte 249; PModRM; PSib; PDisp],
    [TByte 102; TByte 15; TByte 249; TSlash 0 1]);
  (* 16777-16791; 1961 *) (Inst "ptest" [KX; KX] (Some (Op 0, 1)) None [PByte 102; PModRex false; PByte 15; PByte 56; PByte 23; PModRM; PSib; PDisp],
    [TByte 102; TByte 15; TByte 56; TByte 23; TSlash 0 1]);
  (* 16794-16808; 1961 *) (Inst "ptest" [KX; KMem] (Some (Op 0, 1)) None [PByte 102; PModRex false; PByte 15; PByte 56; PByte 23; PModRM; PSib; PDisp],
    [TByte 102; TByte 15; TByte 56; TByte 23; TSlash 0 1]);
  (* 16813-16826; 1966 *) (Inst "punpckhbw" [KX; KX] (Some (Op 0, 1)) None [PByte 102; PModRex false; PByte 15; PByte 104; PModRM; PSib; PDisp],
    [TByte 102; TByte 15; TByte 104; TSlash 0 1]);
  (* 16829-16842; 1966 *) (Inst "punpckhbw" [KX; KMem] (Some (Op 0, 1)) None [PByte 102; PModRex false; PByte 15; PByte 104; PModRM; PSib; PDisp],
    [TByte 102; TByte 15; TByte 104; TSlash 0 1]);
  (* 16847-16860; 1971 *) (Inst "punpckhdq" [KX; KX] (Some (Op 0, 1)) None [PByte 102; PModRex false; PByte 15; PByte 106; PModRM; PSib; PDisp],
    [TByte 102; TByte 15; TByte 106; TSlash 0 1]);
  (* 16863-16876; 1971 *) (Inst "punpckhdq" [KX; KMem] (Some (Op 0, 1)) None [PByte 102; PModRex false; PByte 15; PByte 106; PModRM; PSib; PDisp],
    [TByte 102; TByte 15; TByte 106; TSlash 0 1]);
  (* 16881-16894; 1976 *) (Inst "punpckhqdq" [KX; KX] (Some (Op 0, 1)) None [PByte 102; PModRex false; PByte 15; PByte 109; PModRM; PSib; PDisp],
    [TByte 102; TByte 15; TByte 109; TSlash 0 1]);
  (* 16897-16910; 1976 *) (Inst "punpckhqdq" [KX; KMem] (Some (Op 0, 1)) None [PByte 102; PModRex false; PByte 15; PByte 109; PModRM; PSib; PDisp],
    [TByte 102; TByte 15; TByte 109; TSlash 0 1]);
  (* 16915-16928; 1981 *) (Inst "punpckhwd" [KX; KX] (Some (Op 0, 1)) None [PByte 102; PModRex false; PByte 15; PByte 105; PModRM; PSib; PDisp],
    [TByte 102; TByte 15; TByte 105; TSlash 0 1]);
  (* 16931-16944; 1981 *) (Inst "punpckhwd" [KX; KMem] (Some (Op 0, 1)) None [PByte 102; PModRex false; PByte 15; PByte 105; PModRM; PSib; PDisp],
    [TByte 102; TByte 15; TByte 105; TSlash 0 1]);
  (* 16949-16962; 1986 *) (Inst "punpcklbw" [KX; KX] (Some (Op 0, 1)) None [PByte 102; PModRex false; PByte 15; PByte 96; PModRM; PSib; PDisp],
    [TByte 102; TByte 15; TByte 96; TSlash 0 1]);
  (* 16965-16978; 1986 *) (Inst "punpcklbw" [KX; KMem] (Some (Op 0, 1)) None [PByte 102; PModRex false; PByte 15; PByte 96; PModRM; PSib; PDisp],
    [TByte 102; TByte 15; TByte 96; TSlash 0 1]);
  (* 16983-16996; 1991 *) (Inst "punpckldq" [KX; KX] (Some (Op 0, 1)) None [PByte 102; PModRex false; PByte 15; PByte 98; PModRM; PSib; PDisp],
    [TByte 102; TByte 15; TByte 98; TSlash 0 1]);
  (* 16999-17012; 1991 *) (Inst "punpckldq" [KX; KMem] (Some (Op 0, 1)) None [PByte 102; PModRex false; PByte 15; PByte 98; PModRM; PSib; PDisp],
    [TByte 102; TByte 15; TByte 98; TSlash 0 1]);
  (* 17017-17030; 1996 *) (Inst "punpcklqdq" [KX; KX] (Some (Op 0, 1)) None [PByte 102; PModRex false; PByte 15; PByte 108; PModRM; PSib; PDisp],
    [TByte 102; TByte 15; TByte 108; TSlash 0 1]);
  (* 17033-17046; 1996 *) (Inst "punpcklqdq" [KX; KMem] (Some (Op 0, 1)) None [PByte 102; PModRex false; PByte 15; PByte 108; PModRM; PSib; PDisp],
    [TByte 102; TByte 15; TByte 108; TSlash 0 1]);
  (* 17051-17064; 2001 *) (Inst "punpcklwd" [KX; KX] (Some (Op 0, 1)) None [PByte 102; PModRex false; PByte 15; PByte 97; PModRM; PSib; PDisp],
    [TByte 102; TByte 15; TByte 97; TSlash 0 1]);
  (* 17067-17080; 2001 *) (Inst "punpcklwd" [KX; KMem] (Some (Op 0, 1)) None [PByte 102; PModRex false; PByte 15; PByte 97; PModRM; PSib; PDisp],
    [TByte 102; TByte 15; TByte 97; TSlash 0 1]);
  (* 17085-17091; 2006 *) (Inst "pushfq" [] None None [PByte 156],
    [TByte 156]);
  (* 17096-17103; 2011 *) (Inst "pushfw" [] None None [PByte 102; PByte 156],
    [TByte 102; TByte 156]);
  (* 17108-17116; 2016 *) (Inst "pushq" [K64] None (Some 0) [PRioRex false; PBytePlus 80],
    [TByte 80; TPlus 0]);
  (* 17119-17126; 2017 *) (Inst "pushq" [KI8] None None [PByte 106; PImm 0],
    [TByte 106; TImm 1 0]);
  (* 17129-17137; 2018 *) (Inst "pushq" [KI16] None None [PByte 102; PByte 104; PImm 0],
    [TByte 102; TByte 104; TImm 2 0]);
  (* 17140-17147; 2019 *) (Inst "pushq" [KI32] None None [PByte 104; PImm 0],
    [TByte 104; TImm 4 0]);
  (* 17150-17161; 2020 *) (Inst "pushq" [KMem] (Some (Digit 6, 0)) None [PModRex false; PByte 255; PModRM; PSib; PDisp],
    [TByte 255; TDigit 6 0]);
  (* 17166-17175; 2025 *) (Inst "pushw" [K16] None (Some 0) [PByte 102; PRioRex false; PBytePlus 80],
    [TByte 102; TByte 80; TPlus 0]);
  (* 17178-17190; 2026 *) (Inst "pushw" [KMem] (Some (Digit 6, 0)) None [PByte 102; PModRex false; PByte 255; PModRM; PSib; PDisp],
    [TByte 102; TByte 255; TDigit 6 0]);
  (* 17195-17208; 2031 *) (Inst "pxor" [KX; KX] (Some (Op 0, 1)) None [PByte 102; PModRex false; PByte 15; PByte 239; PModRM; PSib; PDisp],
    [TByte 102; TByte 15; TByte 239; TSlash 0 1]);
  (* 17211-17224; 2031 *) (Inst "pxor" [KX; KMem] (Some (Op 0, 1)) None [PByte 102; PModRex false; PByte 15; PByte 239; PModRM; PSib; PDisp],
    [TByte 102; TByte 15; TByte 239; TSlash 0 1]);
  (* 17229-17241; 2036 *) (Inst "rclb" [K8; KI8] (Some (Digit 2, 0)) None [PModRex false; PByte 192; PModRM; PSib; PDisp; PImm 1],
    [TByte 192; TDigit 2 0; TImm 1 1]);
  (* 17244-17256; 2036 *) (Inst "rclb" [KMem; KI8] (Some (Digit 2, 0)) None [PModRex false; PByte 192; PModRM; PSib; PDisp; PImm 1],
    [TByte 192; TDigit 2 0; TImm 1 1]);
  (* 17259-17270; 2037 *) (Inst "rclb" [K8; KFixed F1] (Some (Digit 2, 0)) None [PModRex false; PByte 208; PModRM; PSib; PDisp],
    [TByte 208; TDigit 2 0]);
  (* 17273-17284; 2037 *) (Inst "rclb" [KMem; KFixed F1] (Some (Digit 2, 0)) None [PModRex false; PByte 208; PModRM; PSib; PDisp],
    [TByte 208; TDigit 2 0]);
  (* 17287-17298; 2038 *) (Inst "rclb" [K8; KFixed FCl] (Some (Digit 2, 0)) None [PModRex false; PByte 210; PModRM; PSib; PDisp],
    [TByte 210; TDigit 2 0]);
  (* 17301-17312; 2038 *) (Inst "rclb" [KMem; KFixed FCl] (Some (Digit 2, 0)) None [PModRex false; PByte 210; PModRM; PSib; PDisp],
    [TByte 210; TDigit 2 0]);
  (* 17317-17329; 2043 *) (Inst "rcll" [K32; KI8] (Some (Digit 2, 0)) None [PModRex false; PByte 193; PModRM; PSib; PDisp; PImm 1],
    [TByte 193; TDigit 2 0; TImm 1 1]);
  (* 17332-17344; 2043 *) (Inst "rcll" [KMem; KI8] (Some (Digit 2, 0)) None [PModRex false; PByte 193; PModRM; PSib; PDisp; PImm 1],
    [TByte 193; TDigit 2 0; TImm 1 1]);
  (* 17347-17358; 2044 *) (Inst "rcll" [K32; KFixed F1] (Some (Digit 2, 0)) None [PModRex false; PByte 209; PModRM; PSib; PDisp],
    [TByte 209; TDigit 2 0]);
  (* 17361-17372; 2044 *) (Inst "rcll" [KMem; KFixed F1] (Some (Digit 2, 0)) None [PModRex false; PByte 209; PModRM; PSib; PDisp],
    [TByte 209; TDigit 2 0]);
  (* 17375-17386; 2045 *) (Inst "rcll" [K32; KFixed FCl] (Some (Digit 2, 0)) None [PModRex false; PByte 211; PModRM; PSib; PDisp],
    [TByte 211; TDigit 2 0]);
  (* 17389-17400; 2045 *) (Inst "rcll" [KMem; KFixed FCl] (Some (Digit 2, 0)) None [PModRex false; PByte 211; PModRM; PSib; PDisp],
    [TByte 211; TDigit 2 0]);
  (* 17405-17417; 2050 *) (Inst "rclq" [K64; KI8] (Some (Digit 2, 0)) None [PModRex true; PByte 193; PModRM; PSib; PDisp; PImm 1],
    [TRexW; TByte 193; TDigit 2 0; TImm 1 1]);
  (* 17420-17432; 2050 *) (Inst "rclq" [KMem; KI8] (Some (Digit 2, 0)) None [PModRex true; PByte 193; PModRM; PSib; PDisp; PImm 1],
    [TRexW; TByte 193; TDigit 2 0; TImm 1 1]);
  (* 17435-17446; 2051 *) (Inst "rclq" [K64; KFixed F1] (Some (Digit 2, 0)) None [PModRex true; PByte 209; PModRM; PSib; PDisp],
    [TRexW; TByte 209; TDigit 2 0]);
  (* 17449-17460; 2051 *) (Inst "rclq" [KMem; KFixed F1] (Some (Digit 2, 0)) None [PModRex true; PByte 209; PModRM; PSib; PDisp],
    [TRexW; TByte 209; TDigit 2 0]);
  (* 17463-17474; 2052 *) (Inst "rclq" [K64; KFixed FCl] (Some (Digit 2, 0)) None [PModRex true; PByte 211; PModRM; PSib; PDisp],
    [TRexW; TByte 211; TDigit 2 0]);
  (* 17477-17488; 2052 *) (Inst "rclq" [KMem; KFixed FCl] (Some (Digit 2, 0)) None [PModRex true; PByte 211; PModRM; PSib; PDisp],
    [TRexW; TByte 211; TDigit 2 0])].

Definition table9 : list (inst * list token) := [
  (* 17493-17506; 2057 *) (Inst "rclw" [K16; KI8] (Some (Digit 2, 0)) None [PByte 102; PModRex false; PByte 193; PModRM; PSib; PDisp; PImm 1],
    [TByte 102; TByte 193; TDigit 2 0; TImm 1 1]);
  (* 17509-17522; 2057 *) (Inst "rclw" [KMem; KI8] (Some (Digit 2, 0)) None [PByte 102; PModRex false; PByte 193; PModRM; PSib; PDisp; PImm 1],
    [TByte 102; TByte 193; TDigit 2 0; TImm 1 1]);
  (* 17525-17537; 2058 *) (Inst "rclw" [K16; KFixed F1] (Some (Digit 2, 0)) None [PByte 102; PModRex false; PByte 209; PModRM; PSib; PDisp],
    [TByte 102; TByte 209; TDigit 2 0]);
  (* 17540-17552; 2058 *) (Inst "rclw" [KMem; KFixed F1] (Some (Digit 2, 0)) None [PByte 102; PModRex false; PByte 209; PModRM; PSib; PDisp],
    [TByte 102; TByte 209; TDigit 2 0]);
  (* 17555-17567; 2059 *) (Inst "rclw" [K16; KFixed FCl] (Some (Digit 2, 0)) None [PByte 102; PModRex false; PByte 211; PModRM; PSib; PDisp],
    [TByte 102; TByte 211; TDigit 2 0]);
  (* 17570-17582; 2059 *) (Inst "rclw" [KMem; KFixed FCl] (Some (Digit 2, 0)) None [PByte 102; PModRex false; PByte 211; PModRM; PSib; PDisp],
    [TByte 102; TByte 211; TDigit 2 0]);
  (* 17587-17599; 2064 *) (Inst "rcpps" [KX; KX] (Some (Op 0, 1)) None [PModRex false; PByte 15; PByte 83; PModRM; PSib; PDisp],
    [TByte 15; TByte 83; TSlash 0 1]);
  (* 17602-17614; 2064 *) (Inst "rcpps" [KX; KMem] (Some (Op 0, 1)) None [PModRex false; PByte 15; PByte 83; PModRM; PSib; PDisp],
    [TByte 15; TByte 83; TSlash 0 1]);
  (* 17619-17632; 2069 *) (Inst "rcpss" [KX; KX] (Some (Op 0, 1)) None [PByte 243; PModRex false; PByte 15; PByte 83; PModRM; PSib; PDisp],
    [TByte 243; TByte 15; TByte 83; TSlash 0 1]);
  (* 17635-17648; 2069 *) (Inst "rcpss" [KX; KMem] (Some (Op 0, 1)) None [PByte 243; PModRex false; PByte 15; PByte 83; PModRM; PSib; PDisp],
    [TByte 243; TByte 15; TByte 83; TSlash 0 1]);
  (* 17653-17665; 2074 *) (Inst "rcrb" [K8; KI8] (Some (Digit 3, 0)) None [PModRex false; PByte 192; PModRM; PSib; PDisp; PImm 1],
    [TByte 192; TDigit 3 0; TImm 1 1]);
  (* 17668-17680; 2074 *) (Inst "rcrb" [KMem; KI8] (Some (Digit 3, 0)) None [PModRex false; PByte 192; PModRM; PSib; PDisp; PImm 1],
    [TByte 192; TDigit 3 0; TImm 1 1]);
  (* 17683-17694; 2075 *) (Inst "rcrb" [K8; KFixed F1] (Some (Digit 3, 0)) None [PModRex false; PByte 208; PModRM; PSib; PDisp],
    [TByte 208; TDigit 3 0]);
  (* 17697-17708; 2075 *) (Inst "rcrb" [KMem; KFixed F1] (Some (Digit 3, 0)) None [PModRex false; PByte 208; PModRM; PSib; PDisp],
    [TByte 208; TDigit 3 0]);
  (* 17711-17722; 2076 *) (Inst "rcrb" [K8; KFixed FCl] (Some (Digit 3, 0)) None [PModRex false; PByte 210; PModRM; PSib; PDisp],
    [TByte 210; TDigit 3 0]);
  (* 17725-17736; 2076 *) (Inst "rcrb" [KMem; KFixed FCl] (Some (Digit 3, 0)) None [PModRex false; PByte 210; PModRM; PSib; PDisp],
    [TByte 210; TDigit 3 0]);
  (* 17741-17753; 2081 *) (Inst "rcrl" [K32; KI8] (Some (Digit 3, 0)) None [PModRex false; PByte 193; PModRM; PSib; PDisp; PImm 1],
    [TByte 193; TDigit 3 0; TImm 1 1]);
  (* 17756-17768; 2081 *) (Inst "rcrl" [KMem; KI8] (Some (Digit 3, 0)) None [PModRex false; PByte 193; PModRM; PSib; PDisp; PImm 1],
    [TByte 193; TDigit 3 0; TImm 1 1]);
  (* 17771-17782; 2082 *) (Inst "rcrl" [K32; KFixed F1] (Some (Digit 3, 0)) None [PModRex false; PByte 209; PModRM; PSib; PDisp],
    [TByte 209; TDigit 3 0]);
  (* 17785-17796; 2082 *) (Inst "rcrl" [KMem; KFixed F1] (Some (Digit 3, 0)) None [PModRex false; PByte 209; PModRM; PSib; PDisp],
    [TByte 209; TDigit 3 0]);
  (* 17799-17810; 2083 *) (Inst "rcrl" [K32; KFixed FCl] (Some (Digit 3, 0)) None [PModRex false; PByte 211; PModRM; PSib; PDisp],
    [TByte 211; TDigit 3 0]);
  (* 17813-17824; 2083 *) (Inst "rcrl" [KMem; KFixed FCl] (Some (Digit 3, 0)) None [PModRex false; PByte 211; PModRM; PSib; PDisp],
    [TByte 211; TDigit 3 0]);
  (* 17829-17841; 2088 *) (Inst "rcrq" [K64; KI8] (Some (Digit 3, 0)) None [PModRex true; PByte 193; PModRM; PSib; PDisp; PImm 1],
    [TRexW; TByte 193; TDigit 3 0; TImm 1 1]);
  (* 17844-17856; 2088 *) (Inst "rcrq" [KMem; KI8] (Some (Digit 3, 0)) None [PModRex true; PByte 193; PModRM; PSib; PDisp; PImm 1],
    [TRexW; TByte 193; TDigit 3 0; TImm 1 1]);
  (* 17859-17870; 2089 *) (Inst "rcrq" [K64; KFixed F1] (Some (Digit 3, 0)) None [PModRex true; PByte 209; PModRM; PSib; PDisp],
    [TRexW; TByte 209; TDigit 3 0]);
  (* 17873-17884; 2089 *) (Inst "rcrq" [KMem; KFixed F1] (Some (Digit 3, 0)) None [PModRex true; PByte 209; PModRM; PSib; PDisp],
    [TRexW; TByte 209; TDigit 3 0]);
  (* 17887-17898; 2090 *) (Inst "rcrq" [K64; KFixed FCl] (Some (Digit 3, 0)) None [PModRex true; PByte 211; PModRM; PSib; PDisp],
    [TRexW; TByte 211; TDigit 3 0]);
  (* 17901-17912; 2090 *) (Inst "rcrq" [KMem; KFixed FCl] (Some (Digit 3, 0)) None [PModRex true; PByte 211; PModRM; PSib; PDisp],
    [TRexW; TByte 211; TDigit 3 0]);
  (* 17917-17930; 2095 *) (Inst "rcrw" [K16; KI8] (Some (Digit 3, 0)) None [PByte 102; PModRex false; PByte 193; PModRM; PSib; PDisp; PImm 1],
    [TByte 102; TByte 193; TDigit 3 0; TImm 1 1]);
  (* 17933-17946; 2095 *) (Inst "rcrw" [KMem; KI8] (Some (Digit 3, 0)) None [PByte 102; PModRex false; PByte 193; PModRM; PSib; PDisp; PImm 1],
    [TByte 102; TByte 193; TDigit 3 0; TImm 1 1]);
  (* 17949-17961; 2096 *) (Inst "rcrw" [K16; KFixed F1] (Some (Digit 3, 0)) None [PByte 102; PModRex false; PByte 209; PModRM; PSib; PDisp],
    [TByte 102; TByte 209; TDigit 3 0]);
  (* 17964-17976; 2096 *) (Inst "rcrw" [KMem; KFixed F1] (Some (Digit 3, 0)) None [PByte 102; PModRex false; PByte 209; PModRM; PSib; PDisp],
    [TByte 102; TByte 209; TDigit 3 0]);
  (* 17979-17991; 2097 *) (Inst "rcrw" [K16; KFixed FCl] (Some (Digit 3, 0)) None [PByte 102; PModRex false; PByte 211; PModRM; PSib; PDisp],
    [TByte 102; TByte 211; TDigit 3 0]);
  (* 17994-18006; 2097 *) (Inst "rcrw" [KMem; KFixed FCl] (Some (Digit 3, 0)) None [PByte 102; PModRex false; PByte 211; PModRM; PSib; PDisp],
    [TByte 102; TByte 211; TDigit 3 0]);
  (* 18011-18017; 2102 *) (Inst "retq" [] None None [PByte 195],
    [TByte 195]);
  (* 18022-18029; 2107 *) (Inst "retq1" [KI16] None None [PByte 194; PImm 0],
    [TByte 194; TImm 2 0]);
  (* 18034-18046; 2112 *) (Inst "rolb" [K8; KI8] (Some (Digit 0, 0)) None [PModRex false; PByte 192; PModRM; PSib; PDisp; PImm 1],
    [TByte 192; TDigit 0 0; TImm 1 1]);
  (* 18049-18061; 2112 *) (Inst "rolb" [KMem; KI8] (Some (Digit 0, 0)) None [PModRex false; PByte 192; PModRM; PSib; PDisp; PImm 1],
    [TByte 192; TDigit 0 0; TImm 1 1]);
  (* 18064-18075; 2113 *) (Inst "rolb" [K8; KFixed F1] (Some (Digit 0, 0)) None [PModRex false; PByte 208; PModRM; PSib; PDisp],
    [TByte 208; TDigit 0 0]);
  (* 18078-18089; 2113 *) (Inst "rolb" [KMem; KFixed F1] (Some (Digit 0, 0)) None [PModRex false; PByte 208; PModRM; PSib; PDisp],
    [TByte 208; TDigit 0 0]);
  (* 18092-18103; 2114 *) (Inst "rolb" [K8; KFixed FCl] (Some (Digit 0, 0)) None [PModRex false; PByte 210; PModRM; PSib; PDisp],
    [TByte 210; TDigit 0 0]);
  (* 18106-18117; 2114 *) (Inst "rolb" [KMem; KFixed FCl] (Some (Digit 0, 0)) None [PModRex false; PByte 210; PModRM; PSib; PDisp],
    [TByte 210; TDigit 0 0]);
  (* 18122-18134; 2119 *) (Inst "roll" [K32; KI8] (Some (Digit 0, 0)) None [PModRex false; PByte 193; PModRM; PSib; PDisp; PImm 1],
    [TByte 193; TDigit 0 0; TImm 1 1]);
  (* 18137-18149; 2119 *) (Inst "roll" [KMem; KI8] (Some (Digit 0, 0)) None [PModRex false; PByte 193; PModRM; PSib; PDisp; PImm 1],
    [TByte 193; TDigit 0 0; TImm 1 1]);
  (* 18152-18163; 2120 *) (Inst "roll" [K32; KFixed F1] (Some (Digit 0, 0)) None [PModRex false; PByte 209; PModRM; PSib; PDisp],
    [TByte 209; TDigit 0 0]);
  (* 18166-18177; 2120 *) (Inst "roll" [KMem; KFixed F1] (Some (Digit 0, 0)) None [PModRex false; PByte 209; PModRM; PSib; PDisp],
    [TByte 209; TDigit 0 0]);
  (* 18180-18191; 2121 *) (Inst "roll" [K32; KFixed FCl] (Some (Digit 0, 0)) None [PModRex false; PByte 211; PModRM; PSib; PDisp],
    [TByte 211; TDigit 0 0]);
  (* 18194-18205; 2121 *) (Inst "roll" [KMem; KFixed FCl] (Some (Digit 0, 0)) None [PModRex false; PByte 211; PModRM; PSib; PDisp],
    [TByte 211; TDigit 0 0]);
  (* 18210-18222; 2126 *) (Inst "rolq" [K64; KI8] (Some (Digit 0, 0)) None [PModRex true; PByte 193; PModRM; PSib; PDisp; PImm 1],
    [TRexW; TByte 193; TDigit 0 0; TImm 1 1]);
  (* 18225-18237; 2126 *) (Inst "rolq" [KMem; KI8] (Some (Digit 0, 0)) None [PModRex true; PByte 193; PModRM; PSib; PDisp; PImm 1],
    [TRexW; TByte 193; TDigit 0 0; TImm 1 1]);
  (* 18240-18251; 2127 *) (Inst "rolq" [K64; KFixed F1] (Some (Digit 0, 0)) None [PModRex true; PByte 209; PModRM; PSib; PDisp],
    [TRexW; TByte 209; TDigit 0 0]);
  (* 18254-18265; 2127 *) (Inst "rolq" [KMem; KFixed F1] (Some (Digit 0, 0)) None [PModRex true; PByte 209; PModRM; PSib; PDisp],
    [TRexW; TByte 209; TDigit 0 0]);
  (* 18268-18279; 2128 *) (Inst "rolq" [K64; KFixed FCl] (Some (Digit 0, 0)) None [PModRex true; PByte 211; PModRM; PSib; PDisp],
    [TRexW; TByte 211; TDigit 0 0]);
  (* 18282-18293; 2128 *) (Inst "rolq" [KMem; KFixed FCl] (Some (Digit 0, 0)) None [PModRex true; PByte 211; PModRM; PSib; PDisp],
    [TRexW; TByte 211; TDigit 0 0]);
  (* 18298-18311; 2133 *) (Inst "rolw" [K16; KI8] (Some (Digit 0, 0)) None [PByte 102; PModRex false; PByte 193; PModRM; PSib; PDisp; PImm 1],
    [TByte 102; TByte 193; TDigit 0 0; TImm 1 1]);
  (* 18314-18327; 2133 *) (Inst "rolw" [KMem; KI8] (Some (Digit 0, 0)) None [PByte 102; PModRex false; PByte 193; PModRM; PSib; PDisp; PImm 1],
    [TByte 102; TByte 193; TDigit 0 0; TImm 1 1]);
  (* 18330-18342; 2134 *) (Inst "rolw" [K16; KFixed F1] (Some (Digit 0, 0)) None [PByte 102; PModRex false; PByte 209; PModRM; PSib; PDisp],
    [TByte 102; TByte 209; TDigit 0 0]);
  (* 18345-18357; 2134 *) (Inst "rolw" [KMem; KFixed F1] (Some (Digit 0, 0)) None [PByte 102; PModRex false; PByte 209; PModRM; PSib; PDisp],
    [TByte 102; TByte 209; TDigit 0 0]);
  (* 18360-18372; 2135 *) (Inst "rolw" [K16; KFixed FCl] (Some (Digit 0, 0)) None [PByte 102; PModRex false; PByte 211; PModRM; PSib; PDisp],
    [TByte 102; TByte 211; TDigit 0 0]);
  (* 18375-18387; 2135 *) (Inst "rolw" [KMem; KFixed FCl] (Some (Digit 0, 0)) None [PByte 102; PModRex false; PByte 211; PModRM; PSib; PDisp],
    [TByte 102; TByte 211; TDigit 0 0]);
  (* 18392-18404; 2140 *) (Inst "rorb" [K8; KI8] (Some (Digit 1, 0)) None [PModRex false; PByte 192; PModRM; PSib; PDisp; PImm 1],
    [TByte 192; TDigit 1 0; TImm 1 1]);
  (* 18407-18419; 2140 *) (Inst "rorb" [KMem; KI8] (Some (Digit 1, 0)) None [PModRex false; PByte 192; PModRM; PSib; PDisp; PImm 1],
    [TByte 192; TDigit 1 0; TImm 1 1]);
  (* 18422-18433; 2141 *) (Inst "rorb" [K8; KFixed F1] (Some (Digit 1, 0)) None [PModRex false; PByte 208; PModRM; PSib; PDisp],
    [TByte 208; TDigit 1 0]);
  (* 18436-18447; 2141 *) (Inst "rorb" [KMem; KFixed F1] (Some (Digit 1, 0)) None [PModRex false; PByte 208; PModRM; PSib; PDisp],
    [TByte 208; TDigit 1 0]);
  (* 18450-18461; 2142 *) (Inst "rorb" [K8; KFixed FCl] (Some (Digit 1, 0)) None [PModRex false; PByte 210; PModRM; PSib; PDisp],
    [TByte 210; TDigit 1 0]);
  (* 18464-18475; 2142 *) (Inst "rorb" [KMem; KFixed FCl] (Some (Digit 1, 0)) None [PModRex false; PByte 210; PModRM; PSib; PDisp],
    [TByte 210; TDigit 1 0]);
  (* 18480-18492; 2147 *) (Inst "rorl" [K32; KI8] (Some (Digit 1, 0)) None [PModRex false; PByte 193; PModRM; PSib; PDisp; PImm 1],
    [TByte 193; TDigit 1 0; TImm 1 1]);
  (* 18495-18507; 2147 *) (Inst "rorl" [KMem; KI8] (Some (Digit 1, 0)) None [PModRex false; PByte 193; PModRM; PSib; PDisp; PImm 1],
    [TByte 193; TDigit 1 0; TImm 1 1]);
  (* 18510-18521; 2148 *) (Inst "rorl" [K32; KFixed F1] (Some (Digit 1, 0)) None [PModRex false; PByte 209; PModRM; PSib; PDisp],
    [TByte 209; TDigit 1 0]);
  (* 18524-18535; 2148 *) (Inst "rorl" [KMem; KFixed F1] (Some (Digit 1, 0)) None [PModRex false; PByte 209; PModRM; PSib; PDisp],
    [TByte 209; TDigit 1 0]);
  (* 18538-18549; 2149 *) (Inst "rorl" [K32; KFixed FCl] (Some (Digit 1, 0)) None [PModRex false; PByte 211; PModRM; PSib; PDisp],
    [TByte 211; TDigit 1 0]);
  (* 18552-18563; 2149 *) (Inst "rorl" [KMem; KFixed FCl] (Some (Digit 1, 0)) None [PModRex false; PByte 211; PModRM; PSib; PDisp],
    [TByte 211; TDigit 1 0]);
  (* 18568-18580; 2154 *) (Inst "rorq" [K64; KI8] (Some (Digit 1, 0)) None [PModRex true; PByte 193; PModRM; PSib; PDisp; PImm 1],
    [TRexW; TByte 193; TDigit 1 0; TImm 1 1]);
  (* 18583-18595; 2154 *) (Inst "rorq" [KMem; KI8] (Some (Digit 1, 0)) None [PModRex true; PByte 193; PModRM; PSib; PDisp; PImm 1],
    [TRexW; TByte 193; TDigit 1 0; TImm 1 1]);
  (* 18598-18609; 2155 *) (Inst "rorq" [K64; KFixed F1] (Some (Digit 1, 0)) None [PModRex true; PByte 209; PModRM; PSib; PDisp],
    [TRexW; TByte 209; TDigit 1 0]);
  (* 18612-18623; 2155 *) (Inst "rorq" [KMem; KFixed F1] (Some (Digit 1, 0)) None [PModRex true; PByte 209; PModRM; PSib; PDisp],
    [TRexW; TByte 209; TDigit 1 0]);
  (* 18626-18637; 2156 *) (Inst "rorq" [K64; KFixed FCl] (Some (Digit 1, 0)) None [PModRex true; PByte 211; PModRM; PSib; PDisp],
    [TRexW; TByte 211; TDigit 1 0]);
  (* 18640-18651; 2156 *) (Inst "rorq" [KMem; KFixed FCl] (Some (Digit 1, 0)) None [PModRex true; PByte 211; PModRM; PSib; PDisp],
    [TRexW; TByte 211; TDigit 1 0]);
  (* 18656-18669; 2161 *) (Inst "rorw" [K16; KI8] (Some (Digit 1, 0)) None [PByte 102; PModRex false; PByte 193; PModRM; PSib; PDisp; PImm 1],
    [TByte 102; TByte 193; TDigit 1 0; TImm 1 1]);
  (* 18672-18685; 2161 *) (Inst "rorw" [KMem; KI8] (Some (Digit 1, 0)) None [PByte 102; PModRex false; PByte 193; PModRM; PSib; PDisp; PImm 1],
    [TByte 102; TByte 193; TDigit 1 0; TImm 1 1]);
  (* 18688-18700; 2162 *) (Inst "rorw" [K16; KFixed F1] (Some (Digit 1, 0)) None [PByte 102; PModRex false; PByte 209; PModRM; PSib; PDisp],
    [TByte 102; TByte 209; TDigit 1 0]);
  (* 18703-18715; 2162 *) (Inst "rorw" [KMem; KFixed F1] (Some (Digit 1, 0)) None [PByte 102; PModRex false; PByte 209; PModRM; PSib; PDisp],
    [TByte 102; TByte 209; TDigit 1 0]);
  (* 18718-18730; 2163 *) (Inst "rorw" [K16; KFixed FCl] (Some (Digit 1, 0)) None [PByte 102; PModRex false; PByte 211; PModRM; PSib; PDisp],
    [TByte 102; TByte 211; TDigit 1 0]);
  (* 18733-18745; 2163 *) (Inst "rorw" [KMem; KFixed FCl] (Some (Digit 1, 0)) None [PByte 102; PModRex false; PByte 211; PModRM; PSib; PDisp],
    [TByte 102; TByte 211; TDigit 1 0]);
  (* 18750-18765; 2168 *) (Inst "roundpd" [KX; KX; KI8] (Some (Op 0, 1)) None [PByte 102; PModRex false; PByte 15; PByte 58; PByte 9; PModRM; PSib; PDisp; PImm 2],
    [TByte 102; TByte 15; TByte 58; TByte 9; TSlash 0 1; TImm 1 2]);
  (* 18768-18783; 2168 *) (Inst "roundpd" [KX; KMem; KI8] (Some (Op 0, 1)) None [PByte 102; PModRex false; PByte 15; PByte 58; PByte 9; PModRM; PSib; PDisp; PImm 2],
    [TByte 102; TByte 15; TByte 58; TByte 9; TSlash 0 1; TImm 1 2]);
  (* 18788-18803; 2173 *) (Inst "roundps" [KX; KX; KI8] (Some (Op 0, 1)) None [PByte 102; PModRex false; PByte 15; PByte 58; PByte 8; PModRM; PSib; PDisp; PImm 2],
    [TByte 102; TByte 15; TByte 58; TByte 8; TSlash 0 1; TImm 1 2]);
  (* 18806-18821; 2173 *) (Inst "roundps" [KX; KMem; KI8] (Some (Op 0, 1)) None [PByte 102; PModRex false; PByte 15; PByte 58; PByte 8; PModRM; PSib; PDisp; PImm 2],
    [TByte 102; TByte 15; TByte 58; TByte 8; TSlash 0 1; TImm 1 2]);
  (* 18826-18841; 2178 *) (Inst "roundsd" [KX; KX; KI8] (Some (Op 0, 1)) None [PByte 102; PModRex false; PByte 15; PByte 58; PByte 11; PModRM; PSib; PDisp; PImm 2],
    [TByte 102; TByte 15; TByte 58; TByte 11; TSlash 0 1; TImm 1 2]);
  (* 18844-18859; 2178 *) (Inst "roundsd" [KX; KMem; KI8] (Some (Op 0, 1)) None [PByte 102; PModRex false; PByte 15; PByte 58; PByte 11; PModRM; PSib; PDisp; PImm 2],
    [TByte 102; TByte 15; TByte 58; TByte 11; TSlash 0 1; TImm 1 2]);
  (* 18864-18879; 2183 *) (Inst "roundss" [KX; KX; KI8] (Some (Op 0, 1)) None [PByte 102; PModRex false; PByte 15; PByte 58; PByte 10; PModRM; PSib; PDisp; PImm 2],
    [TByte 102; TByte 15; TByte 58; TByte 10; TSlash 0 1; TImm 1 2]);
  (* 18882-18897; 2183 *) (Inst "roundss" [KX; KMem; KI8] (Some (Op 0, 1)) None [PByte 102; PModRex false; PByte 15; PByte 58; PByte 10; PModRM; PSib; PDisp; PImm 2],
    [TByte 102; TByte 15; TByte 58; TByte 10; TSlash 0 1; TImm 1 2]);
  (* 18902-18914; 2188 *) (Inst "rsqrtps" [KX; KX] (Some (Op 0, 1)) None [PModRex false; PByte 15; PByte 82; PModRM; PSib; PDisp],
    [TByte 15; TByte 82; TSlash 0 1]);
  (* 18917-18929; 2188 *) (Inst "rsqrtps" [KX; KMem] (Some (Op 0, 1)) None [PModRex false; PByte 15; PByte 82; PModRM; PSib; PDisp],
    [TByte 15; TByte 82; TSlash 0 1]);
  (* 18934-18947; 2193 *) (Inst "rsqrtss" [KX; KX] (Some (Op 0, 1)) None [PByte 243; PModRex false; PByte 15; PByte 82; PModRM; PSib; PDisp],
    [TByte 243; TByte 15; TByte 82; TSlash 0 1]);
  (* 18950-18963; 2193 *) (Inst "rsqrtss" [KX; KMem] (Some (Op 0, 1)) None [PByte 243; PModRex false; PByte 15; PByte 82; PModRM; PSib; PDisp],
    [TByte 243; TByte 15; TByte 82; TSlash 0 1]);
  (* 18968-18980; 2198 *) (Inst "salb" [K8; KI8] (Some (Digit 4, 0)) None [PModRex false; PByte 192; PModRM; PSib; PDisp; PImm 1],
    [TByte 192; TDigit 4 0; TImm 1 1]);
  (* 18983-18995; 2198 *) (Inst "salb" [KMem; KI8] (Some (Digit 4, 0)) None [PModRex false; PByte 192; PModRM; PSib; PDisp; PImm 1],
    [TByte 192; TDigit 4 0; TImm 1 1]);
  (* 18998-19009; 2199 *) (Inst "salb" [K8; KFixed F1] (Some (Digit 4, 0)) None [PModRex false; PByte 208; PModRM; PSib; PDisp],
    [TByte 208; TDigit 4 0]);
  (* 19012-19023; 2199 *) (Inst "salb" [KMem; KFixed F1] (Some (Digit 4, 0)) None [PModRex false; PByte 208; PModRM; PSib; PDisp],
    [TByte 208; TDigit 4 0])].

Definition table10 : list (inst * list token) := [
  (* 19026-19037; 2200 *) (Inst "salb" [K8; KFixed FCl] (Some (Digit 4, 0)) None [PModRex false; PByte 210; PModRM; PSib; PDisp],
    [TByte 210; TDigit 4 0]);
  (* 19040-19051; 2200 *) (Inst "salb" [KMem; KFixed FCl] (Some (Digit 4, 0)) None [PModRex false; PByte 210; PModRM; PSib; PDisp],
    [TByte 210; TDigit 4 0]);
  (* 19056-19068; 2205 *) (Inst "sall" [K32; KI8] (Some (Digit 4, 0)) None [PModRex false; PByte 193; PModRM; PSib; PDisp; PImm 1],
    [TByte 193; TDigit 4 0; TImm 1 1]);
  (* 19071-19083; 2205 *) (Inst "sall" [KMem; KI8] (Some (Digit 4, 0)) None [PModRex false; PByte 193; PModRM; PSib; PDisp; PImm 1],
    [TByte 193; TDigit 4 0; TImm 1 1]);
  (* 19086-19097; 2206 *) (Inst "sall" [K32; KFixed F1] (Some (Digit 4, 0)) None [PModRex false; PByte 209; PModRM; PSib; PDisp],
    [TByte 209; TDigit 4 0]);
  (* 19100-19111; 2206 *) (Inst "sall" [KMem; KFixed F1] (Some (Digit 4, 0)) None [PModRex false; PByte 209; PModRM; PSib; PDisp],
    [TByte 209; TDigit 4 0]);
  (* 19114-19125; 2207 *) (Inst "sall" [K32; KFixed FCl] (Some (Digit 4, 0)) None [PModRex false; PByte 211; PModRM; PSib; PDisp],
    [TByte 211; TDigit 4 0]);
  (* 19128-19139; 2207 *) (Inst "sall" [KMem; KFixed FCl] (Some (Digit 4, 0)) None [PModRex false; PByte 211; PModRM; PSib; PDisp],
    [TByte 211; TDigit 4 0]);
  (* 19144-19156; 2212 *) (Inst "salq" [K64; KI8] (Some (Digit 4, 0)) None [PModRex true; PByte 193; PModRM; PSib; PDisp; PImm 1],
    [TRexW; TByte 193; TDigit 4 0; TImm 1 1]);
  (* 19159-19171; 2212 *) (Inst "salq" [KMem; KI8] (Some (Digit 4, 0)) None [PModRex true; PByte 193; PModRM; PSib; PDisp; PImm 1],
    [TRexW; TByte 193; TDigit 4 0; TImm 1 1]);
  (* 19174-19185; 2213 *) (Inst "salq" [K64; KFixed F1] (Some (Digit 4, 0)) None [PModRex true; PByte 209; PModRM; PSib; PDisp],
    [TRexW; TByte 209; TDigit 4 0]);
  (* 19188-19199; 2213 *) (Inst "salq" [KMem; KFixed F1] (Some (Digit 4, 0)) None [PModRex true; PByte 209; PModRM; PSib; PDisp],
    [TRexW; TByte 209; TDigit 4 0]);
  (* 19202-19213; 2214 *) (Inst "salq" [K64; KFixed FCl] (Some (Digit 4, 0)) None [PModRex true; PByte 211; PModRM; PSib; PDisp],
    [TRexW; TByte 211; TDigit 4 0]);
  (* 19216-19227; 2214 *) (Inst "salq" [KMem; KFixed FCl] (Some (Digit 4, 0)) None [PModRex true; PByte 211; PModRM; PSib; PDisp],
    [TRexW; TByte 211; TDigit 4 0]);
  (* 19232-19245; 2219 *) (Inst "salw" [K16; KI8] (Some (Digit 4, 0)) None [PByte 102; PModRex false; PByte 193; PModRM; PSib; PDisp; PImm 1],
    [TByte 102; TByte 193; TDigit 4 0; TImm 1 1]);
  (* 19248-19261; 2219 *) (Inst "salw" [KMem; KI8] (Some (Digit 4, 0)) None [PByte 102; PModRex false; PByte 193; PModRM; PSib; PDisp; PImm 1],
    [TByte 102; TByte 193; TDigit 4 0; TImm 1 1]);
  (* 19264-19276; 2220 *) (Inst "salw" [K16; KFixed F1] (Some (Digit 4, 0)) None [PByte 102; PModRex false; PByte 209; PModRM; PSib; PDisp],
    [TByte 102; TByte 209; TDigit 4 0]);
  (* 19279-19291; 2220 *) (Inst "salw" [KMem; KFixed F1] (Some (Digit 4, 0)) None [PByte 102; PModRex false; PByte 209; PModRM; PSib; PDisp],
    [TByte 102; TByte 209; TDigit 4 0]);
  (* 19294-19306; 2221 *) (Inst "salw" [K16; KFixed FCl] (Some (Digit 4, 0)) None [PByte 102; PModRex false; PByte 211; PModRM; PSib; PDisp],
    [TByte 102; TByte 211; TDigit 4 0]);
  (* 19309-19321; 2221 *) (Inst "salw" [KMem; KFixed FCl] (Some (Digit 4, 0)) None [PByte 102; PModRex false; PByte 211; PModRM; PSib; PDisp],
    [TByte 102; TByte 211; TDigit 4 0]);
  (* 19326-19338; 2226 *) (Inst "sarb" [K8; KI8] (Some (Digit 7, 0)) None [PModRex false; PByte 192; PModRM; PSib; PDisp; PImm 1],
    [TByte 192; TDigit 7 0; TImm 1 1]);
  (* 19341-19353; 2226 *) (Inst "sarb" [KMem; KI8] (Some (Digit 7, 0)) None [PModRex false; PByte 192; PModRM; PSib; PDisp; PImm 1],
    [TByte 192; TDigit 7 0; TImm 1 1]);
  (* 19356-19367; 2227 *) (Inst "sarb" [K8; KFixed F1] (Some (Digit 7, 0)) None [PModRex false; PByte 208; PModRM; PSib; PDisp],
    [TByte 208; TDigit 7 0]);
  (* 19370-19381; 2227 *) (Inst "sarb" [KMem; KFixed F1] (Some (Digit 7, 0)) None [PModRex false; PByte 208; PModRM; PSib; PDisp],
    [TByte 208; TDigit 7 0]);
  (* 19384-19395; 2228 *) (Inst "sarb" [K8; KFixed FCl] (Some (Digit 7, 0)) None [PModRex false; PByte 210; PModRM; PSib; PDisp],
    [TByte 210; TDigit 7 0]);
  (* 19398-19409; 2228 *) (Inst "sarb" [KMem; KFixed FCl] (Some (Digit 7, 0)) None [PModRex false; PByte 210; PModRM; PSib; PDisp],
    [TByte 210; TDigit 7 0]);
  (* 19414-19426; 2233 *) (Inst "sarl" [K32; KI8] (Some (Digit 7, 0)) None [PModRex false; PByte 193; PModRM; PSib; PDisp; PImm 1],
    [TByte 193; TDigit 7 0; TImm 1 1]);
  (* 19429-19441; 2233 *) (Inst "sarl" [KMem; KI8] (Some (Digit 7, 0)) None [PModRex false; PByte 193; PModRM; PSib; PDisp; PImm 1],
    [TByte 193; TDigit 7 0; TImm 1 1]);
  (* 19444-19455; 2234 *) (Inst "sarl" [K32; KFixed F1] (Some (Digit 7, 0)) None [PModRex false; PByte 209; PModRM; PSib; PDisp],
    [TByte 209; TDigit 7 0]);
  (* 19458-19469; 2234 *) (Inst "sarl" [KMem; KFixed F1] (Some (Digit 7, 0)) None [PModRex false; PByte 209; PModRM; PSib; PDisp],
    [TByte 209; TDigit 7 0]);
  (* 19472-19483; 2235 *) (Inst "sarl" [K32; KFixed FCl] (Some (Digit 7, 0)) None [PModRex false; PByte 211; PModRM; PSib; PDisp],
    [TByte 211; TDigit 7 0]);
  (* 19486-19497; 2235 *) (Inst "sarl" [KMem; KFixed FCl] (Some (Digit 7, 0)) None [PModRex false; PByte 211; PModRM; PSib; PDisp],
    [TByte 211; TDigit 7 0]);
  (* 19502-19514; 2240 *) (Inst "sarq" [K64; KI8] (Some (Digit 7, 0)) None [PModRex true; PByte 193; PModRM; PSib; PDisp; PImm 1],
    [TRexW; TByte 193; TDigit 7 0; TImm 1 1]);
  (* 19517-19529; 2240 *) (Inst "sarq" [KMem; KI8] (Some (Digit 7, 0)) None [PModRex true; PByte 193; PModRM; PSib; PDisp; PImm 1],
    [TRexW; TByte 193; TDigit 7 0; TImm 1 1]);
  (* 19532-19543; 2241 *) (Inst "sarq" [K64; KFixed F1] (Some (Digit 7, 0)) None [PModRex true; PByte 209; PModRM; PSib; PDisp],
    [TRexW; TByte 209; TDigit 7 0]);
  (* 19546-19557; 2241 *) (Inst "sarq" [KMem; KFixed F1] (Some (Digit 7, 0)) None [PModRex true; PByte 209; PModRM; PSib; PDisp],
    [TRexW; TByte 209; TDigit 7 0]);
  (* 19560-19571; 2242 *) (Inst "sarq" [K64; KFixed FCl] (Some (Digit 7, 0)) None [PModRex true; PByte 211; PModRM; PSib; PDisp],
    [TRexW; TByte 211; TDigit 7 0]);
  (* 19574-19585; 2242 *) (Inst "sarq" [KMem; KFixed FCl] (Some (Digit 7, 0)) None [PModRex true; PByte 211; PModRM; PSib; PDisp],
    [TRexW; TByte 211; TDigit 7 0]);
  (* 19590-19603; 2247 *) (Inst "sarw" [K16; KI8] (Some (Digit 7, 0)) None [PByte 102; PModRex false; PByte 193; PModRM; PSib; PDisp; PImm 1],
    [TByte 102; TByte 193; TDigit 7 0; TImm 1 1]);
  (* 19606-19619; 2247 *) (Inst "sarw" [KMem; KI8] (Some (Digit 7, 0)) None [PByte 102; PModRex false; PByte 193; PModRM; PSib; PDisp; PImm 1],
    [TByte 102; TByte 193; TDigit 7 0; TImm 1 1]);
  (* 19622-19634; 2248 *) (Inst "sarw" [K16; KFixed F1] (Some (Digit 7, 0)) None [PByte 102; PModRex false; PByte 209; PModRM; PSib; PDisp],
    [TByte 102; TByte 209; TDigit 7 0]);
  (* 19637-19649; 2248 *) (Inst "sarw" [KMem; KFixed F1] (Some (Digit 7, 0)) None [PByte 102; PModRex false; PByte 209; PModRM; PSib; PDisp],
    [TByte 102; TByte 209; TDigit 7 0]);
  (* 19652-19664; 2249 *) (Inst "sarw" [K16; KFixed FCl] (Some (Digit 7, 0)) None [PByte 102; PModRex false; PByte 211; PModRM; PSib; PDisp],
    [TByte 102; TByte 211; TDigit 7 0]);
  (* 19667-19679; 2249 *) (Inst "sarw" [KMem; KFixed FCl] (Some (Digit 7, 0)) None [PByte 102; PModRex false; PByte 211; PModRM; PSib; PDisp],
    [TByte 102; TByte 211; TDigit 7 0]);
  (* 19684-19695; 2254 *) (Inst "sbbb" [K8; K8] (Some (Op 0, 1)) None [PModRex false; PByte 26; PModRM; PSib; PDisp],
    [TByte 26; TSlash 0 1]);
  (* 19698-19709; 2254 *) (Inst "sbbb" [K8; KMem] (Some (Op 0, 1)) None [PModRex false; PByte 26; PModRM; PSib; PDisp],
    [TByte 26; TSlash 0 1]);
  (* 19712-19723; 2255 *) (Inst "sbbb" [KMem; K8] (Some (Op 1, 0)) None [PModRex false; PByte 24; PModRM; PSib; PDisp],
    [TByte 24; TSlash 1 0]);
  (* 19726-19738; 2256 *) (Inst "sbbb" [K8; KI8] (Some (Digit 3, 0)) None [PModRex false; PByte 128; PModRM; PSib; PDisp; PImm 1],
    [TByte 128; TDigit 3 0; TImm 1 1]);
  (* 19741-19753; 2256 *) (Inst "sbbb" [KMem; KI8] (Some (Digit 3, 0)) None [PModRex false; PByte 128; PModRM; PSib; PDisp; PImm 1],
    [TByte 128; TDigit 3 0; TImm 1 1]);
  (* 19756-19763; 2257 *) (Inst "sbbb" [KFixed FAl; KI8] None None [PByte 28; PImm 1],
    [TByte 28; TImm 1 1]);
  (* 19768-19779; 2262 *) (Inst "sbbl" [K32; K32] (Some (Op 0, 1)) None [PModRex false; PByte 27; PModRM; PSib; PDisp],
    [TByte 27; TSlash 0 1]);
  (* 19782-19793; 2262 *) (Inst "sbbl" [K32; KMem] (Some (Op 0, 1)) None [PModRex false; PByte 27; PModRM; PSib; PDisp],
    [TByte 27; TSlash 0 1]);
  (* 19796-19807; 2263 *) (Inst "sbbl" [KMem; K32] (Some (Op 1, 0)) None [PModRex false; PByte 25; PModRM; PSib; PDisp],
    [TByte 25; TSlash 1 0]);
  (* 19810-19822; 2264 *) (Inst "sbbl" [K32; KI8] (Some (Digit 3, 0)) None [PModRex false; PByte 131; PModRM; PSib; PDisp; PImm 1],
    [TByte 131; TDigit 3 0; TImm 1 1]);
  (* 19825-19837; 2264 *) (Inst "sbbl" [KMem; KI8] (Some (Digit 3, 0)) None [PModRex false; PByte 131; PModRM; PSib; PDisp; PImm 1],
    [TByte 131; TDigit 3 0; TImm 1 1]);
  (* 19840-19852; 2265 *) (Inst "sbbl" [K32; KI32] (Some (Digit 3, 0)) None [PModRex false; PByte 129; PModRM; PSib; PDisp; PImm 1],
    [TByte 129; TDigit 3 0; TImm 4 1]);
  (* 19855-19867; 2265 *) (Inst "sbbl" [KMem; KI32] (Some (Digit 3, 0)) None [PModRex false; PByte 129; PModRM; PSib; PDisp; PImm 1],
    [TByte 129; TDigit 3 0; TImm 4 1]);
  (* 19870-19877; 2266 *) (Inst "sbbl" [KFixed FEax; KI32] None None [PByte 29; PImm 1],
    [TByte 29; TImm 4 1]);
  (* 19882-19893; 2271 *) (Inst "sbbq" [K64; K64] (Some (Op 0, 1)) None [PModRex true; PByte 27; PModRM; PSib; PDisp],
    [TRexW; TByte 27; TSlash 0 1]);
  (* 19896-19907; 2271 *) (Inst "sbbq" [K64; KMem] (Some (Op 0, 1)) None [PModRex true; PByte 27; PModRM; PSib; PDisp],
    [TRexW; TByte 27; TSlash 0 1]);
  (* 19910-19921; 2272 *) (Inst "sbbq" [KMem; K64] (Some (Op 1, 0)) None [PModRex true; PByte 25; PModRM; PSib; PDisp],
    [TRexW; TByte 25; TSlash 1 0]);
  (* 19924-19936; 2273 *) (Inst "sbbq" [K64; KI8] (Some (Digit 3, 0)) None [PModRex true; PByte 131; PModRM; PSib; PDisp; PImm 1],
    [TRexW; TByte 131; TDigit 3 0; TImm 1 1]);
  (* 19939-19951; 2273 *) (Inst "sbbq" [KMem; KI8] (Some (Digit 3, 0)) None [PModRex true; PByte 131; PModRM; PSib; PDisp; PImm 1],
    [TRexW; TByte 131; TDigit 3 0; TImm 1 1]);
  (* 19954-19966; 2274 *) (Inst "sbbq" [K64; KI32] (Some (Digit 3, 0)) None [PModRex true; PByte 129; PModRM; PSib; PDisp; PImm 1],
    [TRexW; TByte 129; TDigit 3 0; TImm 4 1]);
  (* 19969-19981; 2274 *) (Inst "sbbq" [KMem; KI32] (Some (Digit 3, 0)) None [PModRex true; PByte 129; PModRM; PSib; PDisp; PImm 1],
    [TRexW; TByte 129; TDigit 3 0; TImm 4 1]);
  (* 19984-19992; 2275 *) (Inst "sbbq" [KFixed FRax; KI32] None None [PRex true; PByte 29; PImm 1],
    [TRexW; TByte 29; TImm 4 1]);
  (* 19997-20009; 2280 *) (Inst "sbbw" [K16; K16] (Some (Op 0, 1)) None [PByte 102; PModRex false; PByte 27; PModRM; PSib; PDisp],
    [TByte 102; TByte 27; TSlash 0 1]);
  (* 20012-20024; 2280 *) (Inst "sbbw" [K16; KMem] (Some (Op 0, 1)) None [PByte 102; PModRex false; PByte 27; PModRM; PSib; PDisp],
    [TByte 102; TByte 27; TSlash 0 1]);
  (* 20027-20039; 2281 *) (Inst "sbbw" [KMem; K16] (Some (Op 1, 0)) None [PByte 102; PModRex false; PByte 25; PModRM; PSib; PDisp],
    [TByte 102; TByte 25; TSlash 1 0]);
  (* 20042-20055; 2282 *) (Inst "sbbw" [K16; KI8] (Some (Digit 3, 0)) None [PByte 102; PModRex false; PByte 131; PModRM; PSib; PDisp; PImm 1],
    [TByte 102; TByte 131; TDigit 3 0; TImm 1 1]);
  (* 20058-20071; 2282 *) (Inst "sbbw" [KMem; KI8] (Some (Digit 3, 0)) None [PByte 102; PModRex false; PByte 131; PModRM; PSib; PDisp; PImm 1],
    [TByte 102; TByte 131; TDigit 3 0; TImm 1 1]);
  (* 20074-20087; 2283 *) (Inst "sbbw" [K16; KI16] (Some (Digit 3, 0)) None [PByte 102; PModRex false; PByte 129; PModRM; PSib; PDisp; PImm 1],
    [TByte 102; TByte 129; TDigit 3 0; TImm 2 1]);
  (* 20090-20103; 2283 *) (Inst "sbbw" [KMem; KI16] (Some (Digit 3, 0)) None [PByte 102; PModRex false; PByte 129; PModRM; PSib; PDisp; PImm 1],
    [TByte 102; TByte 129; TDigit 3 0; TImm 2 1]);
  (* 20106-20114; 2284 *) (Inst "sbbw" [KFixed FAx; KI16] None None [PByte 102; PByte 29; PImm 1],
    [TByte 102; TByte 29; TImm 2 1]);
  (* 20119-20131; 2289 *) (Inst "seta" [K8] (Some (Digit 0, 0)) None [PModRex false; PByte 15; PByte 151; PModRM; PSib; PDisp],
    [TByte 15; TByte 151; TDigit 0 0]);
  (* 20134-20146; 2289 *) (Inst "seta" [KMem] (Some (Digit 0, 0)) None [PModRex false; PByte 15; PByte 151; PModRM; PSib; PDisp],
    [TByte 15; TByte 151; TDigit 0 0]);
  (* 20151-20163; 2294 *) (Inst "setae" [K8] (Some (Digit 0, 0)) None [PModRex false; PByte 15; PByte 147; PModRM; PSib; PDisp],
    [TByte 15; TByte 147; TDigit 0 0]);
  (* 20166-20178; 2294 *) (Inst "setae" [KMem] (Some (Digit 0, 0)) None [PModRex false; PByte 15; PByte 147; PModRM; PSib; PDisp],
    [TByte 15; TByte 147; TDigit 0 0]);
  (* 20183-20195; 2299 *) (Inst "setb" [K8] (Some (Digit 0, 0)) None [PModRex false; PByte 15; PByte 146; PModRM; PSib; PDisp],
    [TByte 15; TByte 146; TDigit 0 0]);
  (* 20198-20210; 2299 *) (Inst "setb" [KMem] (Some (Digit 0, 0)) None [PModRex false; PByte 15; PByte 146; PModRM; PSib; PDisp],
    [TByte 15; TByte 146; TDigit 0 0]);
  (* 20215-20227; 2304 *) (Inst "setbe" [K8] (Some (Digit 0, 0)) None [PModRex false; PByte 15; PByte 150; PModRM; PSib; PDisp],
    [TByte 15; TByte 150; TDigit 0 0]);
  (* 20230-20242; 2304 *) (Inst "setbe" [KMem] (Some (Digit 0, 0)) None [PModRex false; PByte 15; PByte 150; PModRM; PSib; PDisp],
    [TByte 15; TByte 150; TDigit 0 0]);
  (* 20247-20259; 2309 *) (Inst "setc" [K8] (Some (Digit 0, 0)) None [PModRex false; PByte 15; PByte 146; PModRM; PSib; PDisp],
    [TByte 15; TByte 146; TDigit 0 0]);
  (* 20262-20274; 2309 *) (Inst "setc" [KMem] (Some (Digit 0, 0)) None [PModRex false; PByte 15; PByte 146; PModRM; PSib; PDisp],
    [TByte 15; TByte 146; TDigit 0 0]);
  (* 20279-20291; 2314 *) (Inst "sete" [K8] (Some (Digit 0, 0)) None [PModRex false; PByte 15; PByte 148; PModRM; PSib; PDisp],
    [TByte 15; TByte 148; TDigit 0 0]);
  (* 20294-20306; 2314 *) (Inst "sete" [KMem] (Some (Digit 0, 0)) None [PModRex false; PByte 15; PByte 148; PModRM; PSib; PDisp],
    [TByte 15; TByte 148; TDigit 0 0]);
  (* 20311-20323; 2319 *) (Inst "setg" [K8] (Some (Digit 0, 0)) None [PModRex false; PByte 15; PByte 159; PModRM; PSib; PDisp],
    [TByte 15; TByte 159; TDigit 0 0]);
  (* 20326-20338; 2319 *) (Inst "setg" [KMem] (Some (Digit 0, 0)) None [PModRex false; PByte 15; PByte 159; PModRM; PSib; PDisp],
    [TByte 15; TByte 159; TDigit 0 0]);
  (* 20343-20355; 2324 *) (Inst "setge" [K8] (Some (Digit 0, 0)) None [PModRex false; PByte 15; PByte 157; PModRM; PSib; PDisp],
    [TByte 15; TByte 157; TDigit 0 0]);
  (* 20358-20370; 2324 *) (Inst "setge" [KMem] (Some (Digit 0, 0)) None [PModRex false; PByte 15; PByte 157; PModRM; PSib; PDisp],
    [TByte 15; TByte 157; TDigit 0 0]);
  (* 20375-20387; 2329 *) (Inst "setl" [K8] (Some (Digit 0, 0)) None [PModRex false; PByte 15; PByte 156; PModRM; PSib; PDisp],
    [TByte 15; TByte 156; TDigit 0 0]);
  (* 20390-20402; 2329 *) (Inst "setl" [KMem] (Some (Digit 0, 0)) None [PModRex false; PByte 15; PByte 156; PModRM; PSib; PDisp],
    [TByte 15; TByte 156; TDigit 0 0]);
  (* 20407-20419; 2334 *) (Inst "setle" [K8] (Some (Digit 0, 0)) None [PModRex false; PByte 15; PByte 158; PModRM; PSib; PDisp],
    [TByte 15; TByte 158; TDigit 0 0]);
  (* 20422-20434; 2334 *) (Inst "setle" [KMem] (Some (Digit 0, 0)) None [PModRex false; PByte 15; PByte 158; PModRM; PSib; PDisp],
    [TByte 15; TByte 158; TDigit 0 0]);
  (* 20439-20451; 2339 *) (Inst "setna" [K8] (Some (Digit 0, 0)) None [PModRex false; PByte 15; PByte 150; PModRM; PSib; PDisp],
    [TByte 15; TByte 150; TDigit 0 0]);
  (* 20454-20466; 2339 *) (Inst "setna" [KMem] (Some (Digit 0, 0)) None [PModRex false; PByte 15; PByte 150; PModRM; PSib; PDisp],
    [TByte 15; TByte 150; TDigit 0 0]);
  (* 20471-20483; 2344 *) (Inst "setnae" [K8] (Some (Digit 0, 0)) None [PModRex false; PByte 15; PByte 146; PModRM; PSib; PDisp],
    [TByte 15; TByte 146; TDigit 0 0]);
  (* 20486-20498; 2344 *) (Inst "setnae" [KMem] (Some (Digit 0, 0)) None [PModRex false; PByte 15; PByte 146; PModRM; PSib; PDisp],
    [TByte 15; TByte 146; TDigit 0 0]);
  (* 20503-20515; 2349 *) (Inst "setnb" [K8] (Some (Digit 0, 0)) None [PModRex false; PByte 15; PByte 147; PModRM; PSib; PDisp],
    [TByte 15; TByte 147; TDigit 0 0]);
  (* 20518-20530; 2349 *) (Inst "setnb" [KMem] (Some (Digit 0, 0)) None [PModRex false; PByte 15; PByte 147; PModRM; PSib; PDisp],
    [TByte 15; TByte 147; TDigit 0 0])].

Definition table11 : list (inst * list token) := [
  (* 20535-20547; 2354 *) (Inst "setnbe" [K8] (Some (Digit 0, 0)) None [PModRex false; PByte 15; PByte 151; PModRM; PSib; PDisp],
    [TByte 15; TByte 151; TDigit 0 0]);
  (* 20550-20562; 2354 *) (Inst "setnbe" [KMem] (Some (Digit 0, 0)) None [PModRex false; PByte 15; PByte 151; PModRM; PSib; PDisp],
    [TByte 15; TByte 151; TDigit 0 0]);
  (* 20567-20579; 2359 *) (Inst "setnc" [K8] (Some (Digit 0, 0)) None [PModRex false; PByte 15; PByte 147; PModRM; PSib; PDisp],
    [TByte 15; TByte 147; TDigit 0 0]);
  (* 20582-20594; 2359 *) (Inst "setnc" [KMem] (Some (Digit 0, 0)) None [PModRex false; PByte 15; PByte 147; PModRM; PSib; PDisp],
    [TByte 15; TByte 147; TDigit 0 0]);
  (* 20599-20611; 2364 *) (Inst "setne" [K8] (Some (Digit 0, 0)) None [PModRex false; PByte 15; PByte 149; PModRM; PSib; PDisp],
    [TByte 15; TByte 149; TDigit 0 0]);
  (* 20614-20626; 2364 *) (Inst "setne" [KMem] (Some (Digit 0, 0)) None [PModRex false; PByte 15; PByte 149; PModRM; PSib; PDisp],
    [TByte 15; TByte 149; TDigit 0 0]);
  (* 20631-20643; 2369 *) (Inst "setng" [K8] (Some (Digit 0, 0)) None [PModRex false; PByte 15; PByte 158; PModRM; PSib; PDisp],
    [TByte 15; TByte 158; TDigit 0 0]);
  (* 20646-20658; 2369 *) (Inst "setng" [KMem] (Some (Digit 0, 0)) None [PModRex false; PByte 15; PByte 158; PModRM; PSib; PDisp],
    [TByte 15; TByte 158; TDigit 0 0]);
  (* 20663-20675; 2374 *) (Inst "setnge" [K8] (Some (Digit 0, 0)) None [PModRex false; PByte 15; PByte 156; PModRM; PSib; PDisp],
    [TByte 15; TByte 156; TDigit 0 0]);
  (* 20678-20690; 2374 *) (Inst "setnge" [KMem] (Some (Digit 0, 0)) None [PModRex false; PByte 15; PByte 156; PModRM; PSib; PDisp],
    [TByte 15; TByte 156; TDigit 0 0]);
  (* 20695-20707; 2379 *) (Inst "setnl" [K8] (Some (Digit 0, 0)) None [PModRex false; PByte 15; PByte 157; PModRM; PSib; PDisp],
    [TByte 15; TByte 157; TDigit 0 0]);
  (* 20710-20722; 2379 *) (Inst "setnl" [KMem] (Some (Digit 0, 0)) None [PModRex false; PByte 15; PByte 157; PModRM; PSib; PDisp],
    [TByte 15; TByte 157; TDigit 0 0]);
  (* 20727-20739; 2384 *) (Inst "setnle" [K8] (Some (Digit 0, 0)) None [PModRex false; PByte 15; PByte 159; PModRM; PSib; PDisp],
    [TByte 15; TByte 159; TDigit 0 0]);
  (* 20742-20754; 2384 *) (Inst "setnle" [KMem] (Some (Digit 0, 0)) None [PModRex false; PByte 15; PByte 159; PModRM; PSib; PDisp],
    [TByte 15; TByte 159; TDigit 0 0]);
  (* 20759-20771; 2389 *) (Inst "setno" [K8] (Some (Digit 0, 0)) None [PModRex false; PByte 15; PByte 145; PModRM; PSib; PDisp],
    [TByte 15; TByte 145; TDigit 0 0]);
  (* 20774-20786; 2389 *) (Inst "setno" [KMem] (Some (Digit 0, 0)) None [PModRex false; PByte 15; PByte 145; PModRM; PSib; PDisp],
    [TByte 15; TByte 145; TDigit 0 0]);
  (* 20791-20803; 2394 *) (Inst "setnp" [K8] (Some (Digit 0, 0)) None [PModRex false; PByte 15; PByte 155; PModRM; PSib; PDisp],
    [TByte 15; TByte 155; TDigit 0 0]);
  (* 20806-20818; 2394 *) (Inst "setnp" [KMem] (Some (Digit 0, 0)) None [PModRex false; PByte 15; PByte 155; PModRM; PSib; PDisp],
    [TByte 15; TByte 155; TDigit 0 0]);
  (* 20823-20835; 2399 *) (Inst "setns" [K8] (Some (Digit 0, 0)) None [PModRex false; PByte 15; PByte 153; PModRM; PSib; PDisp],
    [TByte 15; TByte 153; TDigit 0 0]);
  (* 20838-20850; 2399 *) (Inst "setns" [KMem] (Some (Digit 0, 0)) None [PModRex false; PByte 15; PByte 153; PModRM; PSib; PDisp],
    [TByte 15; TByte 153; TDigit 0 0]);
  (* 20855-20867; 2404 *) (Inst "setnz" [K8] (Some (Digit 0, 0)) None [PModRex false; PByte 15; PByte 149; PModRM; PSib; PDisp],
    [TByte 15; TByte 149; TDigit 0 0]);
  (* 20870-20882; 2404 *) (Inst "setnz" [KMem] (Some (Digit 0, 0)) None [PModRex false; PByte 15; PByte 149; PModRM; PSib; PDisp],
    [TByte 15; TByte 149; TDigit 0 0]);
  (* 20887-20899; 2409 *) (Inst "seto" [K8] (Some (Digit 0, 0)) None [PModRex false; PByte 15; PByte 144; PModRM; PSib; PDisp],
    [TByte 15; TByte 144; TDigit 0 0]);
  (* 20902-20914; 2409 *) (Inst "seto" [KMem] (Some (Digit 0, 0)) None [PModRex false; PByte 15; PByte 144; PModRM; PSib; PDisp],
    [TByte 15; TByte 144; TDigit 0 0]);
  (* 20919-20931; 2414 *) (Inst "setp" [K8] (Some (Digit 0, 0)) None [PModRex false; PByte 15; PByte 154; PModRM; PSib; PDisp],
    [TByte 15; TByte 154; TDigit 0 0]);
  (* 20934-20946; 2414 *) (Inst "setp" [KMem] (Some (Digit 0, 0)) None [PModRex false; PByte 15; PByte 154; PModRM; PSib; PDisp],
    [TByte 15; TByte 154; TDigit 0 0]);
  (* 20951-20963; 2419 *) (Inst "setpe" [K8] (Some (Digit 0, 0)) None [PModRex false; PByte 15; PByte 154; PModRM; PSib; PDisp],
    [TByte 15; TByte 154; TDigit 0 0]);
  (* 20966-20978; 2419 *) (Inst "setpe" [KMem] (Some (Digit 0, 0)) None [PModRex false; PByte 15; PByte 154; PModRM; PSib; PDisp],
    [TByte 15; TByte 154; TDigit 0 0]);
  (* 20983-20995; 2424 *) (Inst "setpo" [K8] (Some (Digit 0, 0)) None [PModRex false; PByte 15; PByte 155; PModRM; PSib; PDisp],
    [TByte 15; TByte 155; TDigit 0 0]);
  (* 20998-21010; 2424 *) (Inst "setpo" [KMem] (Some (Digit 0, 0)) None [PModRex false; PByte 15; PByte 155; PModRM; PSib; PDisp],
    [TByte 15; TByte 155; TDigit 0 0]);
  (* 21015-21027; 2429 *) (Inst "sets" [K8] (Some (Digit 0, 0)) None [PModRex false; PByte 15; PByte 152; PModRM; PSib; PDisp],
    [TByte 15; TByte 152; TDigit 0 0]);
  (* 21030-21042; 2429 *) (Inst "sets" [KMem] (Some (Digit 0, 0)) None [PModRex false; PByte 15; PByte 152; PModRM; PSib; PDisp],
    [TByte 15; TByte 152; TDigit 0 0]);
  (* 21047-21059; 2434 *) (Inst "setz" [K8] (Some (Digit 0, 0)) None [PModRex false; PByte 15; PByte 148; PModRM; PSib; PDisp],
    [TByte 15; TByte 148; TDigit 0 0]);
  (* 21062-21074; 2434 *) (Inst "setz" [KMem] (Some (Digit 0, 0)) None [PModRex false; PByte 15; PByte 148; PModRM; PSib; PDisp],
    [TByte 15; TByte 148; TDigit 0 0]);
  (* 21079-21087; 2439 *) (Inst "sfence" [] None None [PByte 15; PByte 174; PByte 248],
    [TByte 15; TByte 174; TByte 248]);
  (* 21092-21104; 2444 *) (Inst "sgdt" [KMem] (Some (Digit 0, 0)) None [PModRex false; PByte 15; PByte 1; PModRM; PSib; PDisp],
    [TByte 15; TByte 1; TDigit 0 0]);
  (* 21109-21121; 2449 *) (Inst "shlb" [K8; KI8] (Some (Digit 4, 0)) None [PModRex false; PByte 192; PModRM; PSib; PDisp; PImm 1],
    [TByte 192; TDigit 4 0; TImm 1 1]);
  (* 21124-21136; 2449 *) (Inst "shlb" [KMem; KI8] (Some (Digit 4, 0)) None [PModRex false; PByte 192; PModRM; PSib; PDisp; PImm 1],
    [TByte 192; TDigit 4 0; TImm 1 1]);
  (* 21139-21150; 2450 *) (Inst "shlb" [K8; KFixed F1] (Some (Digit 4, 0)) None [PModRex false; PByte 208; PModRM; PSib; PDisp],
    [TByte 208; TDigit 4 0]);
  (* 21153-21164; 2450 *) (Inst "shlb" [KMem; KFixed F1] (Some (Digit 4, 0)) None [PModRex false; PByte 208; PModRM; PSib; PDisp],
    [TByte 208; TDigit 4 0]);
  (* 21167-21178; 2451 *) (Inst "shlb" [K8; KFixed FCl] (Some (Digit 4, 0)) None [PModRex false; PByte 210; PModRM; PSib; PDisp],
    [TByte 210; TDigit 4 0]);
  (* 21181-21192; 2451 *) (Inst "shlb" [KMem; KFixed FCl] (Some (Digit 4, 0)) None [PModRex false; PByte 210; PModRM; PSib; PDisp],
    [TByte 210; TDigit 4 0]);
  (* 21197-21210; 2456 *) (Inst "shldl" [K32; K32; KI8] (Some (Op 1, 0)) None [PModRex false; PByte 15; PByte 164; PModRM; PSib; PDisp; PImm 2],
    [TByte 15; TByte 164; TSlash 1 0; TImm 1 2]);
  (* 21213-21226; 2456 *) (Inst "shldl" [KMem; K32; KI8] (Some (Op 1, 0)) None [PModRex false; PByte 15; PByte 164; PModRM; PSib; PDisp; PImm 2],
    [TByte 15; TByte 164; TSlash 1 0; TImm 1 2]);
  (* 21229-21241; 2457 *) (Inst "shldl" [K32; K32; KFixed FCl] (Some (Op 1, 0)) None [PModRex false; PByte 15; PByte 165; PModRM; PSib; PDisp],
    [TByte 15; TByte 165; TSlash 1 0]);
  (* 21244-21256; 2457 *) (Inst "shldl" [KMem; K32; KFixed FCl] (Some (Op 1, 0)) None [PModRex false; PByte 15; PByte 165; PModRM; PSib; PDisp],
    [TByte 15; TByte 165; TSlash 1 0]);
  (* 21261-21274; 2462 *) (Inst "shldq" [K64; K64; KI8] (Some (Op 1, 0)) None [PModRex true; PByte 15; PByte 164; PModRM; PSib; PDisp; PImm 2],
    [TRexW; TByte 15; TByte 164; TSlash 1 0; TImm 1 2]);
  (* 21277-21290; 2462 *) (Inst "shldq" [KMem; K64; KI8] (Some (Op 1, 0)) None [PModRex true; PByte 15; PByte 164; PModRM; PSib; PDisp; PImm 2],
    [TRexW; TByte 15; TByte 164; TSlash 1 0; TImm 1 2]);
  (* 21293-21305; 2463 *) (Inst "shldq" [K64; K64; KFixed FCl] (Some (Op 1, 0)) None [PModRex true; PByte 15; PByte 165; PModRM; PSib; PDisp],
    [TRexW; TByte 15; TByte 165; TSlash 1 0]);
  (* 21308-21320; 2463 *) (Inst "shldq" [KMem; K64; KFixed FCl] (Some (Op 1, 0)) None [PModRex true; PByte 15; PByte 165; PModRM; PSib; PDisp],
    [TRexW; TByte 15; TByte 165; TSlash 1 0]);
  (* 21325-21339; 2468 *) (Inst "shldw" [K16; K16; KI8] (Some (Op 1, 0)) None [PByte 102; PModRex false; PByte 15; PByte 164; PModRM; PSib; PDisp; PImm 2],
    [TByte 102; TByte 15; TByte 164; TSlash 1 0; TImm 1 2]);
  (* 21342-21356; 2468 *) (Inst "shldw" [KMem; K16; KI8] (Some (Op 1, 0)) None [PByte 102; PModRex false; PByte 15; PByte 164; PModRM; PSib; PDisp; PImm 2],
    [TByte 102; TByte 15; TByte 164; TSlash 1 0; TImm 1 2]);
  (* 21359-21372; 2469 *) (Inst "shldw" [K16; K16; KFixed FCl] (Some (Op 1, 0)) None [PByte 102; PModRex false; PByte 15; PByte 165; PModRM; PSib; PDisp],
    [TByte 102; TByte 15; TByte 165; TSlash 1 0]);
  (* 21375-21388; 2469 *) (Inst "shldw" [KMem; K16; KFixed FCl] (Some (Op 1, 0)) None [PByte 102; PModRex false; PByte 15; PByte 165; PModRM; PSib; PDisp],
    [TByte 102; TByte 15; TByte 165; TSlash 1 0]);
  (* 21393-21405; 2474 *) (Inst "shll" [K32; KI8] (Some (Digit 4, 0)) None [PModRex false; PByte 193; PModRM; PSib; PDisp; PImm 1],
    [TByte 193; TDigit 4 0; TImm 1 1]);
  (* 21408-21420; 2474 *) (Inst "shll" [KMem; KI8] (Some (Digit 4, 0)) None [PModRex false; PByte 193; PModRM; PSib; PDisp; PImm 1],
    [TByte 193; TDigit 4 0; TImm 1 1]);
  (* 21423-21434; 2475 *) (Inst "shll" [K32; KFixed F1] (Some (Digit 4, 0)) None [PModRex false; PByte 209; PModRM; PSib; PDisp],
    [TByte 209; TDigit 4 0]);
  (* 21437-21448; 2475 *) (Inst "shll" [KMem; KFixed F1] (Some (Digit 4, 0)) None [PModRex false; PByte 209; PModRM; PSib; PDisp],
    [TByte 209; TDigit 4 0]);
  (* 21451-21462; 2476 *) (Inst "shll" [K32; KFixed FCl] (Some (Digit 4, 0)) None [PModRex false; PByte 211; PModRM; PSib; PDisp],
    [TByte 211; TDigit 4 0]);
  (* 21465-21476; 2476 *) (Inst "shll" [KMem; KFixed FCl] (Some (Digit 4, 0)) None [PModRex false; PByte 211; PModRM; PSib; PDisp],
    [TByte 211; TDigit 4 0]);
  (* 21481-21493; 2481 *) (Inst "shlq" [K64; KI8] (Some (Digit 4, 0)) None [PModRex true; PByte 193; PModRM; PSib; PDisp; PImm 1],
    [TRexW; TByte 193; TDigit 4 0; TImm 1 1]);
  (* 21496-21508; 2481 *) (Inst "shlq" [KMem; KI8] (Some (Digit 4, 0)) None [PModRex true; PByte 193; PModRM; PSib; PDisp; PImm 1],
    [TRexW; TByte 193; TDigit 4 0; TImm 1 1]);
  (* 21511-21522; 2482 *) (Inst "shlq" [K64; KFixed F1] (Some (Digit 4, 0)) None [PModRex true; PByte 209; PModRM; PSib; PDisp],
    [TRexW; TByte 209; TDigit 4 0]);
  (* 21525-21536; 2482 *) (Inst "shlq" [KMem; KFixed F1] (Some (Digit 4, 0)) None [PModRex true; PByte 209; PModRM; PSib; PDisp],
    [TRexW; TByte 209; TDigit 4 0]);
  (* 21539-21550; 2483 *) (Inst "shlq" [K64; KFixed FCl] (Some (Digit 4, 0)) None [PModRex true; PByte 211; PModRM; PSib; PDisp],
    [TRexW; TByte 211; TDigit 4 0]);
  (* 21553-21564; 2483 *) (Inst "shlq" [KMem; KFixed FCl] (Some (Digit 4, 0)) None [PModRex true; PByte 211; PModRM; PSib; PDisp],
    [TRexW; TByte 211; TDigit 4 0]);
  (* 21569-21582; 2488 *) (Inst "shlw" [K16; KI8] (Some (Digit 4, 0)) None [PByte 102; PModRex false; PByte 193; PModRM; PSib; PDisp; PImm 1],
    [TByte 102; TByte 193; TDigit 4 0; TImm 1 1]);
  (* 21585-21598; 2488 *) (Inst "shlw" [KMem; KI8] (Some (Digit 4, 0)) None [PByte 102; PModRex false; PByte 193; PModRM; PSib; PDisp; PImm 1],
    [TByte 102; TByte 193; TDigit 4 0; TImm 1 1]);
  (* 21601-21613; 2489 *) (Inst "shlw" [K16; KFixed F1] (Some (Digit 4, 0)) None [PByte 102; PModRex false; PByte 209; PModRM; PSib; PDisp],
    [TByte 102; TByte 209; TDigit 4 0]);
  (* 21616-21628; 2489 *) (Inst "shlw" [KMem; KFixed F1] (Some (Digit 4, 0)) None [PByte 102; PModRex false; PByte 209; PModRM; PSib; PDisp],
    [TByte 102; TByte 209; TDigit 4 0]);
  (* 21631-21643; 2490 *) (Inst "shlw" [K16; KFixed FCl] (Some (Digit 4, 0)) None [PByte 102; PModRex false; PByte 211; PModRM; PSib; PDisp],
    [TByte 102; TByte 211; TDigit 4 0]);
  (* 21646-21658; 2490 *) (Inst "shlw" [KMem; KFixed FCl] (Some (Digit 4, 0)) None [PByte 102; PModRex false; PByte 211; PModRM; PSib; PDisp],
    [TByte 102; TByte 211; TDigit 4 0]);
  (* 21663-21675; 2495 *) (Inst "shrb" [K8; KI8] (Some (Digit 5, 0)) None [PModRex false; PByte 192; PModRM; PSib; PDisp; PImm 1],
    [TByte 192; TDigit 5 0; TImm 1 1]);
  (* 21678-21690; 2495 *) (Inst "shrb" [KMem; KI8] (Some (Digit 5, 0)) None [PModRex false; PByte 192; PModRM; PSib; PDisp; PImm 1],
    [TByte 192; TDigit 5 0; TImm 1 1]);
  (* 21693-21704; 2496 *) (Inst "shrb" [K8; KFixed F1] (Some (Digit 5, 0)) None [PModRex false; PByte 208; PModRM; PSib; PDisp],
    [TByte 208; TDigit 5 0]);
  (* 21707-21718; 2496 *) (Inst "shrb" [KMem; KFixed F1] (Some (Digit 5, 0)) None [PModRex false; PByte 208; PModRM; PSib; PDisp],
    [TByte 208; TDigit 5 0]);
  (* 21721-21732; 2497 *) (Inst "shrb" [K8; KFixed FCl] (Some (Digit 5, 0)) None [PModRex false; PByte 210; PModRM; PSib; PDisp],
    [TByte 210; TDigit 5 0]);
  (* 21735-21746; 2497 *) (Inst "shrb" [KMem; KFixed FCl] (Some (Digit 5, 0)) None [PModRex false; PByte 210; PModRM; PSib; PDisp],
    [TByte 210; TDigit 5 0]);
  (* 21751-21764; 2502 *) (Inst "shrdl" [K32; K32; KI8] (Some (Op 1, 0)) None [PModRex false; PByte 15; PByte 172; PModRM; PSib; PDisp; PImm 2],
    [TByte 15; TByte 172; TSlash 1 0; TImm 1 2]);
  (* 21767-21780; 2502 *) (Inst "shrdl" [KMem; K32; KI8] (Some (Op 1, 0)) None [PModRex false; PByte 15; PByte 172; PModRM; PSib; PDisp; PImm 2],
    [TByte 15; TByte 172; TSlash 1 0; TImm 1 2]);
  (* 21783-21795; 2503 *) (Inst "shrdl" [K32; K32; KFixed FCl] (Some (Op 1, 0)) None [PModRex false; PByte 15; PByte 173; PModRM; PSib; PDisp],
    [TByte 15; TByte 173; TSlash 1 0]);
  (* 21798-21810; 2503 *) (Inst "shrdl" [KMem; K32; KFixed FCl] (Some (Op 1, 0)) None [PModRex false; PByte 15; PByte 173; PModRM; PSib; PDisp],
    [TByte 15; TByte 173; TSlash 1 0]);
  (* 21815-21828; 2508 *) (Inst "shrdq" [K64; K64; KI8] (Some (Op 1, 0)) None [PModRex true; PByte 15; PByte 172; PModRM; PSib; PDisp; PImm 2],
    [TRexW; TByte 15; TByte 172; TSlash 1 0; TImm 1 2]);
  (* 21831-21844; 2508 *) (Inst "shrdq" [KMem; K64; KI8] (Some (Op 1, 0)) None [PModRex true; PByte 15; PByte 172; PModRM; PSib; PDisp; PImm 2],
    [TRexW; TByte 15; TByte 172; TSlash 1 0; TImm 1 2]);
  (* 21847-21859; 2509 *) (Inst "shrdq" [K64; K64; KFixed FCl] (Some (Op 1, 0)) None [PModRex true; PByte 15; PByte 173; PModRM; PSib; PDisp],
    [TRexW; TByte 15; TByte 173; TSlash 1 0]);
  (* 21862-21874; 2509 *) (Inst "shrdq" [KMem; K64; KFixed FCl] (Some (Op 1, 0)) None [PModRex true; PByte 15; PByte 173; PModRM; PSib; PDisp],
    [TRexW; TByte 15; TByte 173; TSlash 1 0]);
  (* 21879-21893; 2514 *) (Inst "shrdw" [K16; K16; KI8] (Some (Op 1, 0)) None [PByte 102; PModRex false; PByte 15; PByte 172; PModRM; PSib; PDisp; PImm 2],
    [TByte 102; TByte 15; TByte 172; TSlash 1 0; TImm 1 2]);
  (* 21896-21910; 2514 *) (Inst "shrdw" [KMem; K16; KI8] (Some (Op 1, 0)) None [PByte 102; PModRex false; PByte 15; PByte 172; PModRM; PSib; PDisp; PImm 2],
    [TByte 102; TByte 15; TByte 172; TSlash 1 0; TImm 1 2]);
  (* 21913-21926; 2515 *) (Inst "shrdw" [K16; K16; KFixed FCl] (Some (Op 1, 0)) None [PByte 102; PModRex false; PByte 15; PByte 173; PModRM; PSib; PDisp],
    [TByte 102; TByte 15; TByte 173; TSlash 1 0]);
  (* 21929-21942; 2515 *) (Inst "shrdw" [KMem; K16; KFixed FCl] (Some (Op 1, 0)) None [PByte 102; PModRex false; PByte 15; PByte 173; PModRM; PSib; PDisp],
    [TByte 102; TByte 15; TByte 173; TSlash 1 0]);
  (* 21947-21959; 2520 *) (Inst "shrl" [K32; KI8] (Some (Digit 5, 0)) None [PModRex false; PByte 193; PModRM; PSib; PDisp; PImm 1],
    [TByte 193; TDigit 5 0; TImm 1 1]);
  (* 21962-21974; 2520 *) (Inst "shrl" [KMem; KI8] (Some (Digit 5, 0)) None [PModRex false; PByte 193; PModRM; PSib; PDisp; PImm 1],
    [TByte 193; TDigit 5 0; TImm 1 1]);
  (* 21977-21988; 2521 *) (Inst "shrl" [K32; KFixed F1] (Some (Digit 5, 0)) None [PModRex false; PByte 209; PModRM; PSib; PDisp],
    [TByte 209; TDigit 5 0]);
  (* 21991-22002; 2521 *) (Inst "shrl" [KMem; KFixed F1] (Some (Digit 5, 0)) None [PModRex false; PByte 209; PModRM; PSib; PDisp],
    [TByte 209; TDigit 5 0]);
  (* 22005-22016; 2522 *) (Inst "shrl" [K32; KFixed FCl] (Some (Digit 5, 0)) None [PModRex false; PByte 211; PModRM; PSib; PDisp],
    [TByte 211; TDigit 5 0]);
  (* 22019-22030; 2522 *) (Inst "shrl" [KMem; KFixed FCl] (Some (Digit 5, 0)) None [PModRex false; PByte 211; PModRM; PSib; PDisp],
    [TByte 211; TDigit 5 0]);
  (* 22035-22047; 2527 *) (Inst "shrq" [K64; KI8] (Some (Digit 5, 0)) None [PModRex true; PByte 193; PModRM; PSib; PDisp; PImm 1],
    [TRexW; TByte 193; TDigit 5 0; TImm 1 1]);
  (* 22050-22062; 2527 *) (Inst "shrq" [KMem; KI8] (Some (Digit 5, 0)) None [PModRex true; PByte 193; PModRM; PSib; PDisp; PImm 1],
    [TRexW; TByte 193; TDigit 5 0; TImm 1 1]);
  (* 22065-22076; 2528 *) (Inst "shrq" [K64; KFixed F1] (Some (Digit 5, 0)) None [PModRex true; PByte 209; PModRM; PSib; PDisp],
    [TRexW; TByte 209; TDigit 5 0]);
  (* 22079-22090; 2528 *) (Inst "shrq" [KMem; KFixed F1] (Some (Digit 5, 0)) None [PModRex true; PByte 209; PModRM; PSib; PDisp],
    [TRexW; TByte 209; TDigit 5 0])].

Definition table12 : list (inst * list token) := [
  (* 22093-22104; 2529 *) (Inst "shrq" [K64; KFixed FCl] (Some (Digit 5, 0)) None [PModRex true; PByte 211; PModRM; PSib; PDisp],
    [TRexW; TByte 211; TDigit 5 0]);
  (* 22107-22118; 2529 *) (Inst "shrq" [KMem; KFixed FCl] (Some (Digit 5, 0)) None [PModRex true; PByte 211; PModRM; PSib; PDisp],
    [TRexW; TByte 211; TDigit 5 0]);
  (* 22123-22136; 2534 *) (Inst "shrw" [K16; KI8] (Some (Digit 5, 0)) None [PByte 102; PModRex false; PByte 193; PModRM; PSib; PDisp; PImm 1],
    [TByte 102; TByte 193; TDigit 5 0; TImm 1 1]);
  (* 22139-22152; 2534 *) (Inst "shrw" [KMem; KI8] (Some (Digit 5, 0)) None [PByte 102; PModRex false; PByte 193; PModRM; PSib; PDisp; PImm 1],
    [TByte 102; TByte 193; TDigit 5 0; TImm 1 1]);
  (* 22155-22167; 2535 *) (Inst "shrw" [K16; KFixed F1] (Some (Digit 5, 0)) None [PByte 102; PModRex false; PByte 209; PModRM; PSib; PDisp],
    [TByte 102; TByte 209; TDigit 5 0]);
  (* 22170-22182; 2535 *) (Inst "shrw" [KMem; KFixed F1] (Some (Digit 5, 0)) None [PByte 102; PModRex false; PByte 209; PModRM; PSib; PDisp],
    [TByte 102; TByte 209; TDigit 5 0]);
  (* 22185-22197; 2536 *) (Inst "shrw" [K16; KFixed FCl] (Some (Digit 5, 0)) None [PByte 102; PModRex false; PByte 211; PModRM; PSib; PDisp],
    [TByte 102; TByte 211; TDigit 5 0]);
  (* 22200-22212; 2536 *) (Inst "shrw" [KMem; KFixed FCl] (Some (Digit 5, 0)) None [PByte 102; PModRex false; PByte 211; PModRM; PSib; PDisp],
    [TByte 102; TByte 211; TDigit 5 0]);
  (* 22217-22231; 2541 *) (Inst "shufpd" [KX; KX; KI8] (Some (Op 0, 1)) None [PByte 102; PModRex false; PByte 15; PByte 198; PModRM; PSib; PDisp; PImm 2],
    [TByte 102; TByte 15; TByte 198; TSlash 0 1; TImm 1 2]);
  (* 22234-22248; 2541 *) (Inst "shufpd" [KX; KMem; KI8] (Some (Op 0, 1)) None [PByte 102; PModRex false; PByte 15; PByte 198; PModRM; PSib; PDisp; PImm 2],
    [TByte 102; TByte 15; TByte 198; TSlash 0 1; TImm 1 2]);
  (* 22253-22266; 2546 *) (Inst "shufps" [KX; KX; KI8] (Some (Op 0, 1)) None [PModRex false; PByte 15; PByte 198; PModRM; PSib; PDisp; PImm 2],
    [TByte 15; TByte 198; TSlash 0 1; TImm 1 2]);
  (* 22269-22282; 2546 *) (Inst "shufps" [KX; KMem; KI8] (Some (Op 0, 1)) None [PModRex false; PByte 15; PByte 198; PModRM; PSib; PDisp; PImm 2],
    [TByte 15; TByte 198; TSlash 0 1; TImm 1 2]);
  (* 22287-22299; 2551 *) (Inst "sidt" [KMem] (Some (Digit 1, 0)) None [PModRex false; PByte 15; PByte 1; PModRM; PSib; PDisp],
    [TByte 15; TByte 1; TDigit 1 0]);
  (* 22304-22317; 2556 *) (Inst "sqrtpd" [KX; KX] (Some (Op 0, 1)) None [PByte 102; PModRex false; PByte 15; PByte 81; PModRM; PSib; PDisp],
    [TByte 102; TByte 15; TByte 81; TSlash 0 1]);
  (* 22320-22333; 2556 *) (Inst "sqrtpd" [KX; KMem] (Some (Op 0, 1)) None [PByte 102; PModRex false; PByte 15; PByte 81; PModRM; PSib; PDisp],
    [TByte 102; TByte 15; TByte 81; TSlash 0 1]);
  (* 22338-22350; 2561 *) (Inst "sqrtps" [KX; KX] (Some (Op 0, 1)) None [PModRex false; PByte 15; PByte 81; PModRM; PSib; PDisp],
    [TByte 15; TByte 81; TSlash 0 1]);
  (* 22353-22365; 2561 *) (Inst "sqrtps" [KX; KMem] (Some (Op 0, 1)) None [PModRex false; PByte 15; PByte 81; PModRM; PSib; PDisp],
    [TByte 15; TByte 81; TSlash 0 1]);
  (* 22370-22383; 2566 *) (Inst "sqrtsd" [KX; KX] (Some (Op 0, 1)) None [PByte 242; PModRex false; PByte 15; PByte 81; PModRM; PSib; PDisp],
    [TByte 242; TByte 15; TByte 81; TSlash 0 1]);
  (* 22386-22399; 2566 *) (Inst "sqrtsd" [KX; KMem] (Some (Op 0, 1)) None [PByte 242; PModRex false; PByte 15; PByte 81; PModRM; PSib; PDisp],
    [TByte 242; TByte 15; TByte 81; TSlash 0 1]);
  (* 22404-22417; 2571 *) (Inst "sqrtss" [KX; KX] (Some (Op 0, 1)) None [PByte 243; PModRex false; PByte 15; PByte 81; PModRM; PSib; PDisp],
    [TByte 243; TByte 15; TByte 81; TSlash 0 1]);
  (* 22420-22433; 2571 *) (Inst "sqrtss" [KX; KMem] (Some (Op 0, 1)) None [PByte 243; PModRex false; PByte 15; PByte 81; PModRM; PSib; PDisp],
    [TByte 243; TByte 15; TByte 81; TSlash 0 1]);
  (* 22438-22444; 2576 *) (Inst "stc" [] None None [PByte 249],
    [TByte 249]);
  (* 22449-22455; 2581 *) (Inst "std" [] None None [PByte 253],
    [TByte 253]);
  (* 22460-22466; 2586 *) (Inst "sti" [] None None [PByte 251],
    [TByte 251]);
  (* 22471-22483; 2591 *) (Inst "stmxcsr" [KMem] (Some (Digit 3, 0)) None [PModRex false; PByte 15; PByte 174; PModRM; PSib; PDisp],
    [TByte 15; TByte 174; TDigit 3 0]);
  (* 22488-22501; 2596 *) (Inst "str" [K16] (Some (Digit 1, 0)) None [PByte 102; PModRex false; PByte 15; PByte 0; PModRM; PSib; PDisp],
    [TByte 102; TByte 15; TByte 0; TDigit 1 0]);
  (* 22504-22517; 2596 *) (Inst "str" [KMem] (Some (Digit 1, 0)) None [PByte 102; PModRex false; PByte 15; PByte 0; PModRM; PSib; PDisp],
    [TByte 102; TByte 15; TByte 0; TDigit 1 0]);
  (* 22522-22533; 2601 *) (Inst "subb" [K8; K8] (Some (Op 0, 1)) None [PModRex false; PByte 42; PModRM; PSib; PDisp],
    [TByte 42; TSlash 0 1]);
  (* 22536-22547; 2601 *) (Inst "subb" [K8; KMem] (Some (Op 0, 1)) None [PModRex false; PByte 42; PModRM; PSib; PDisp],
    [TByte 42; TSlash 0 1]);
  (* 22550-22561; 2602 *) (Inst "subb" [KMem; K8] (Some (Op 1, 0)) None [PModRex false; PByte 40; PModRM; PSib; PDisp],
    [TByte 40; TSlash 1 0]);
  (* 22564-22576; 2603 *) (Inst "subb" [K8; KI8] (Some (Digit 5, 0)) None [PModRex false; PByte 128; PModRM; PSib; PDisp; PImm 1],
    [TByte 128; TDigit 5 0; TImm 1 1]);
  (* 22579-22591; 2603 *) (Inst "subb" [KMem; KI8] (Some (Digit 5, 0)) None [PModRex false; PByte 128; PModRM; PSib; PDisp; PImm 1],
    [TByte 128; TDigit 5 0; TImm 1 1]);
  (* 22594-22601; 2604 *) (Inst "subb" [KFixed FAl; KI8] None None [PByte 44; PImm 1],
    [TByte 44; TImm 1 1]);
  (* 22606-22617; 2609 *) (Inst "subl" [K32; K32] (Some (Op 0, 1)) None [PModRex false; PByte 43; PModRM; PSib; PDisp],
    [TByte 43; TSlash 0 1]);
  (* 22620-22631; 2609 *) (Inst "subl" [K32; KMem] (Some (Op 0, 1)) None [PModRex false; PByte 43; PModRM; PSib; PDisp],
    [TByte 43; TSlash 0 1]);
  (* 22634-22645; 2610 *) (Inst "subl" [KMem; K32] (Some (Op 1, 0)) None [PModRex false; PByte 41; PModRM; PSib; PDisp],
    [TByte 41; TSlash 1 0]);
  (* 22648-22660; 2611 *) (Inst "subl" [K32; KI8] (Some (Digit 5, 0)) None [PModRex false; PByte 131; PModRM; PSib; PDisp; PImm 1],
    [TByte 131; TDigit 5 0; TImm 1 1]);
  (* 22663-22675; 2611 *) (Inst "subl" [KMem; KI8] (Some (Digit 5, 0)) None [PModRex false; PByte 131; PModRM; PSib; PDisp; PImm 1],
    [TByte 131; TDigit 5 0; TImm 1 1]);
  (* 22678-22690; 2612 *) (Inst "subl" [K32; KI32] (Some (Digit 5, 0)) None [PModRex false; PByte 129; PModRM; PSib; PDisp; PImm 1],
    [TByte 129; TDigit 5 0; TImm 4 1]);
  (* 22693-22705; 2612 *) (Inst "subl" [KMem; KI32] (Some (Digit 5, 0)) None [PModRex false; PByte 129; PModRM; PSib; PDisp; PImm 1],
    [TByte 129; TDigit 5 0; TImm 4 1]);
  (* 22708-22715; 2613 *) (Inst "subl" [KFixed FEax; KI32] None None [PByte 45; PImm 1],
    [TByte 45; TImm 4 1]);
  (* 22720-22733; 2618 *) (Inst "subpd" [KX; KX] (Some (Op 0, 1)) None [PByte 102; PModRex false; PByte 15; PByte 92; PModRM; PSib; PDisp],
    [TByte 102; TByte 15; TByte 92; TSlash 0 1]);
  (* 22736-22749; 2618 *) (Inst "subpd" [KX; KMem] (Some (Op 0, 1)) None [PByte 102; PModRex false; PByte 15; PByte 92; PModRM; PSib; PDisp],
    [TByte 102; TByte 15; TByte 92; TSlash 0 1]);
  (* 22754-22766; 2623 *) (Inst "subps" [KX; KX] (Some (Op 0, 1)) None [PModRex false; PByte 15; PByte 92; PModRM; PSib; PDisp],
    [TByte 15; TByte 92; TSlash 0 1]);
  (* 22769-22781; 2623 *) (Inst "subps" [KX; KMem] (Some (Op 0, 1)) None [PModRex false; PByte 15; PByte 92; PModRM; PSib; PDisp],
    [TByte 15; TByte 92; TSlash 0 1]);
  (* 22786-22797; 2628 *) (Inst "subq" [K64; K64] (Some (Op 0, 1)) None [PModRex true; PByte 43; PModRM; PSib; PDisp],
    [TRexW; TByte 43; TSlash 0 1]);
  (* 22800-22811; 2628 *) (Inst "subq" [K64; KMem] (Some (Op 0, 1)) None [PModRex true; PByte 43; PModRM; PSib; PDisp],
    [TRexW; TByte 43; TSlash 0 1]);
  (* 22814-22825; 2629 *) (Inst "subq" [KMem; K64] (Some (Op 1, 0)) None [PModRex true; PByte 41; PModRM; PSib; PDisp],
    [TRexW; TByte 41; TSlash 1 0]);
  (* 22828-22840; 2630 *) (Inst "subq" [K64; KI8] (Some (Digit 5, 0)) None [PModRex true; PByte 131; PModRM; PSib; PDisp; PImm 1],
    [TRexW; TByte 131; TDigit 5 0; TImm 1 1]);
  (* 22843-22855; 2630 *) (Inst "subq" [KMem; KI8] (Some (Digit 5, 0)) None [PModRex true; PByte 131; PModRM; PSib; PDisp; PImm 1],
    [TRexW; TByte 131; TDigit 5 0; TImm 1 1]);
  (* 22858-22870; 2631 *) (Inst "subq" [K64; KI32] (Some (Digit 5, 0)) None [PModRex true; PByte 129; PModRM; PSib; PDisp; PImm 1],
    [TRexW; TByte 129; TDigit 5 0; TImm 4 1]);
  (* 22873-22885; 2631 *) (Inst "subq" [KMem; KI32] (Some (Digit 5, 0)) None [PModRex true; PByte 129; PModRM; PSib; PDisp; PImm 1],
    [TRexW; TByte 129; TDigit 5 0; TImm 4 1]);
  (* 22888-22896; 2632 *) (Inst "subq" [KFixed FRax; KI32] None None [PRex true; PByte 45; PImm 1],
    [TRexW; TByte 45; TImm 4 1]);
  (* 22901-22914; 2637 *) (Inst "subsd" [KX; KX] (Some (Op 0, 1)) None [PByte 242; PModRex false; PByte 15; PByte 92; PModRM; PSib; PDisp],
    [TByte 242; TByte 15; TByte 92; TSlash 0 1]);
  (* 22917-22930; 2637 *) (Inst "subsd" [KX; KMem] (Some (Op 0, 1)) None [PByte 242; PModRex false; PByte 15; PByte 92; PModRM; PSib; PDisp],
    [TByte 242; TByte 15; TByte 92; TSlash 0 1]);
  (* 22935-22948; 2642 *) (Inst "subss" [KX; KX] (Some (Op 0, 1)) None [PByte 243; PModRex false; PByte 15; PByte 92; PModRM; PSib; PDisp],
    [TByte 243; TByte 15; TByte 92; TSlash 0 1]);
  (* 22951-22964; 2642 *) (Inst "subss" [KX; KMem] (Some (Op 0, 1)) None [PByte 243; PModRex false; PByte 15; PByte 92; PModRM; PSib; PDisp],
    [TByte 243; TByte 15; TByte 92; TSlash 0 1]);
  (* 22969-22981; 2647 *) (Inst "subw" [K16; K16] (Some (Op 0, 1)) None [PByte 102; PModRex false; PByte 43; PModRM; PSib; PDisp],
    [TByte 102; TByte 43; TSlash 0 1]);
  (* 22984-22996; 2647 *) (Inst "subw" [K16; KMem] (Some (Op 0, 1)) None [PByte 102; PModRex false; PByte 43; PModRM; PSib; PDisp],
    [TByte 102; TByte 43; TSlash 0 1]);
  (* 22999-23011; 2648 *) (Inst "subw" [KMem; K16] (Some (Op 1, 0)) None [PByte 102; PModRex false; PByte 41; PModRM; PSib; PDisp],
    [TByte 102; TByte 41; TSlash 1 0]);
  (* 23014-23027; 2649 *) (Inst "subw" [K16; KI8] (Some (Digit 5, 0)) None [PByte 102; PModRex false; PByte 131; PModRM; PSib; PDisp; PImm 1],
    [TByte 102; TByte 131; TDigit 5 0; TImm 1 1]);
  (* 23030-23043; 2649 *) (Inst "subw" [KMem; KI8] (Some (Digit 5, 0)) None [PByte 102; PModRex false; PByte 131; PModRM; PSib; PDisp; PImm 1],
    [TByte 102; TByte 131; TDigit 5 0; TImm 1 1]);
  (* 23046-23059; 2650 *) (Inst "subw" [K16; KI16] (Some (Digit 5, 0)) None [PByte 102; PModRex false; PByte 129; PModRM; PSib; PDisp; PImm 1],
    [TByte 102; TByte 129; TDigit 5 0; TImm 2 1]);
  (* 23062-23075; 2650 *) (Inst "subw" [KMem; KI16] (Some (Digit 5, 0)) None [PByte 102; PModRex false; PByte 129; PModRM; PSib; PDisp; PImm 1],
    [TByte 102; TByte 129; TDigit 5 0; TImm 2 1]);
  (* 23078-23086; 2651 *) (Inst "subw" [KFixed FAx; KI16] None None [PByte 102; PByte 45; PImm 1],
    [TByte 102; TByte 45; TImm 2 1]);
  (* 23091-23099; 2656 *) (Inst "swapgs" [] None None [PByte 15; PByte 1; PByte 248],
    [TByte 15; TByte 1; TByte 248]);
  (* 23104-23115; 2661 *) (Inst "testb" [K8; K8] (Some (Op 1, 0)) None [PModRex false; PByte 132; PModRM; PSib; PDisp],
    [TByte 132; TSlash 1 0]);
  (* 23118-23129; 2661 *) (Inst "testb" [KMem; K8] (Some (Op 1, 0)) None [PModRex false; PByte 132; PModRM; PSib; PDisp],
    [TByte 132; TSlash 1 0]);
  (* 23132-23144; 2662 *) (Inst "testb" [K8; KI8] (Some (Digit 0, 0)) None [PModRex false; PByte 246; PModRM; PSib; PDisp; PImm 1],
    [TByte 246; TDigit 0 0; TImm 1 1]);
  (* 23147-23159; 2662 *) (Inst "testb" [KMem; KI8] (Some (Digit 0, 0)) None [PModRex false; PByte 246; PModRM; PSib; PDisp; PImm 1],
    [TByte 246; TDigit 0 0; TImm 1 1]);
  (* 23162-23169; 2663 *) (Inst "testb" [KFixed FAl; KI8] None None [PByte 168; PImm 1],
    [TByte 168; TImm 1 1]);
  (* 23174-23185; 2668 *) (Inst "testl" [K32; K32] (Some (Op 1, 0)) None [PModRex false; PByte 133; PModRM; PSib; PDisp],
    [TByte 133; TSlash 1 0]);
  (* 23188-23199; 2668 *) (Inst "testl" [KMem; K32] (Some (Op 1, 0)) None [PModRex false; PByte 133; PModRM; PSib; PDisp],
    [TByte 133; TSlash 1 0]);
  (* 23202-23214; 2669 *) (Inst "testl" [K32; KI32] (Some (Digit 0, 0)) None [PModRex false; PByte 247; PModRM; PSib; PDisp; PImm 1],
    [TByte 247; TDigit 0 0; TImm 4 1]);
  (* 23217-23229; 2669 *) (Inst "testl" [KMem; KI32] (Some (Digit 0, 0)) None [PModRex false; PByte 247; PModRM; PSib; PDisp; PImm 1],
    [TByte 247; TDigit 0 0; TImm 4 1]);
  (* 23232-23239; 2670 *) (Inst "testl" [KFixed FEax; KI32] None None [PByte 169; PImm 1],
    [TByte 169; TImm 4 1]);
  (* 23244-23255; 2675 *) (Inst "testq" [K64; K64] (Some (Op 1, 0)) None [PModRex true; PByte 133; PModRM; PSib; PDisp],
    [TRexW; TByte 133; TSlash 1 0]);
  (* 23258-23269; 2675 *) (Inst "testq" [KMem; K64] (Some (Op 1, 0)) None [PModRex true; PByte 133; PModRM; PSib; PDisp],
    [TRexW; TByte 133; TSlash 1 0]);
  (* 23272-23284; 2676 *) (Inst "testq" [K64; KI32] (Some (Digit 0, 0)) None [PModRex true; PByte 247; PModRM; PSib; PDisp; PImm 1],
    [TRexW; TByte 247; TDigit 0 0; TImm 4 1]);
  (* 23287-23299; 2676 *) (Inst "testq" [KMem; KI32] (Some (Digit 0, 0)) None [PModRex true; PByte 247; PModRM; PSib; PDisp; PImm 1],
    [TRexW; TByte 247; TDigit 0 0; TImm 4 1]);
  (* 23302-23310; 2677 *) (Inst "testq" [KFixed FRax; KI32] None None [PRex true; PByte 169; PImm 1],
    [TRexW; TByte 169; TImm 4 1]);
  (* 23315-23327; 2682 *) (Inst "testw" [K16; K16] (Some (Op 1, 0)) None [PByte 102; PModRex false; PByte 133; PModRM; PSib; PDisp],
    [TByte 102; TByte 133; TSlash 1 0]);
  (* 23330-23342; 2682 *) (Inst "testw" [KMem; K16] (Some (Op 1, 0)) None [PByte 102; PModRex false; PByte 133; PModRM; PSib; PDisp],
    [TByte 102; TByte 133; TSlash 1 0]);
  (* 23345-23358; 2683 *) (Inst "testw" [K16; KI16] (Some (Digit 0, 0)) None [PByte 102; PModRex false; PByte 247; PModRM; PSib; PDisp; PImm 1],
    [TByte 102; TByte 247; TDigit 0 0; TImm 2 1]);
  (* 23361-23374; 2683 *) (Inst "testw" [KMem; KI16] (Some (Digit 0, 0)) None [PByte 102; PModRex false; PByte 247; PModRM; PSib; PDisp; PImm 1],
    [TByte 102; TByte 247; TDigit 0 0; TImm 2 1]);
  (* 23377-23385; 2684 *) (Inst "testw" [KFixed FAx; KI16] None None [PByte 102; PByte 169; PImm 1],
    [TByte 102; TByte 169; TImm 2 1]);
  (* 23390-23403; 2689 *) (Inst "ucomisd" [KX; KX] (Some (Op 0, 1)) None [PByte 102; PModRex false; PByte 15; PByte 46; PModRM; PSib; PDisp],
    [TByte 102; TByte 15; TByte 46; TSlash 0 1]);
  (* 23406-23419; 2689 *) (Inst "ucomisd" [KX; KMem] (Some (Op 0, 1)) None [PByte 102; PModRex false; PByte 15; PByte 46; PModRM; PSib; PDisp],
    [TByte 102; TByte 15; TByte 46; TSlash 0 1]);
  (* 23424-23436; 2694 *) (Inst "ucomiss" [KX; KX] (Some (Op 0, 1)) None [PModRex false; PByte 15; PByte 46; PModRM; PSib; PDisp],
    [TByte 15; TByte 46; TSlash 0 1]);
  (* 23439-23451; 2694 *) (Inst "ucomiss" [KX; KMem] (Some (Op 0, 1)) None [PModRex false; PByte 15; PByte 46; PModRM; PSib; PDisp],
    [TByte 15; TByte 46; TSlash 0 1]);
  (* 23456-23463; 2699 *) (Inst "ud2" [] None None [PByte 15; PByte 11],
    [TByte 15; TByte 11]);
  (* 23468-23481; 2704 *) (Inst "unpckhpd" [KX; KX] (Some (Op 0, 1)) None [PByte 102; PModRex false; PByte 15; PByte 21; PModRM; PSib; PDisp],
    [TByte 102; TByte 15; TByte 21; TSlash 0 1]);
  (* 23484-23497; 2704 *) (Inst "unpckhpd" [KX; KMem] (Some (Op 0, 1)) None [PByte 102; PModRex false; PByte 15; PByte 21; PModRM; PSib; PDisp],
    [TByte 102; TByte 15; TByte 21; TSlash 0 1]);
  (* 23502-23514; 2709 *) (Inst "unpckhps" [KX; KX] (Some (Op 0, 1)) None [PModRex false; PByte 15; PByte 21; PModRM; PSib; PDisp],
    [TByte 15; TByte 21; TSlash 0 1]);
  (* 23517-23529; 2709 *) (Inst "unpckhps" [KX; KMem] (Some (Op 0, 1)) None [PModRex false; PByte 15; PByte 21; PModRM; PSib; PDisp],
    [TByte 15; TByte 21; TSlash 0 1]);
  (* 23534-23547; 2714 *) (Inst "unpcklpd" [KX; KX] (Some (Op 0, 1)) None [PByte 102; PModRex false; PByte 15; PByte 20; PModRM; PSib; PDisp],
    [TByte 102; TByte 15; TByte 20; TSlash 0 1]);
  (* 23550-23563; 2714 *) (Inst "unpcklpd" [KX; KMem] (Some (Op 0, 1)) None [PByte 102; PModRex false; PByte 15; PByte 20; PModRM; PSib; PDisp],
    [TByte 102; TByte 15; TByte 20; TSlash 0 1]);
  (* 23568-23580; 2719 *) (Inst "unpcklps" [KX; KX] (Some (Op 0, 1)) None [PModRex false; PByte 15; PByte 20; PModRM; PSib; PDisp],
    [TByte 15; TByte 20; TSlash 0 1]);
  (* 23583-23595; 2719 *) (Inst "unpcklps" [KX; KMem] (Some (Op 0, 1)) None [PModRex false; PByte 15; PByte 20; PModRM; PSib; PDisp],
    [TByte 15; TByte 20; TSlash 0 1]);
  (* 23600-23612; 2724 *) (Inst "verr" [K16] (Some (Digit 4, 0)) None [PModRex false; PByte 15; PByte 0; PModRM; PSib; PDisp],
    [TByte 15; TByte 0; TDigit 4 0])].

Definition table13 : list (inst * list token) := [
  (* 23615-23627; 2724 *) (Inst "verr" [KMem] (Some (Digit 4, 0)) None [PModRex false; PByte 15; PByte 0; PModRM; PSib; PDisp],
    [TByte 15; TByte 0; TDigit 4 0]);
  (* 23632-23644; 2729 *) (Inst "verw" [K16] (Some (Digit 5, 0)) None [PModRex false; PByte 15; PByte 0; PModRM; PSib; PDisp],
    [TByte 15; TByte 0; TDigit 5 0]);
  (* 23647-23659; 2729 *) (Inst "verw" [KMem] (Some (Digit 5, 0)) None [PModRex false; PByte 15; PByte 0; PModRM; PSib; PDisp],
    [TByte 15; TByte 0; TDigit 5 0]);
  (* 23664-23671; 2734 *) (Inst "wbinvd" [] None None [PByte 15; PByte 9],
    [TByte 15; TByte 9]);
  (* 23676-23683; 2739 *) (Inst "wrmsr" [] None None [PByte 15; PByte 48],
    [TByte 15; TByte 48]);
  (* 23688-23700; 2744 *) (Inst "xaddb" [K8; K8] (Some (Op 1, 0)) None [PModRex false; PByte 15; PByte 192; PModRM; PSib; PDisp],
    [TByte 15; TByte 192; TSlash 1 0]);
  (* 23703-23715; 2744 *) (Inst "xaddb" [KMem; K8] (Some (Op 1, 0)) None [PModRex false; PByte 15; PByte 192; PModRM; PSib; PDisp],
    [TByte 15; TByte 192; TSlash 1 0]);
  (* 23720-23732; 2749 *) (Inst "xaddl" [K32; K32] (Some (Op 1, 0)) None [PModRex false; PByte 15; PByte 193; PModRM; PSib; PDisp],
    [TByte 15; TByte 193; TSlash 1 0]);
  (* 23735-23747; 2749 *) (Inst "xaddl" [KMem; K32] (Some (Op 1, 0)) None [PModRex false; PByte 15; PByte 193; PModRM; PSib; PDisp],
    [TByte 15; TByte 193; TSlash 1 0]);
  (* 23752-23764; 2754 *) (Inst "xaddq" [K64; K64] (Some (Op 1, 0)) None [PModRex true; PByte 15; PByte 193; PModRM; PSib; PDisp],
    [TRexW; TByte 15; TByte 193; TSlash 1 0]);
  (* 23767-23779; 2754 *) (Inst "xaddq" [KMem; K64] (Some (Op 1, 0)) None [PModRex true; PByte 15; PByte 193; PModRM; PSib; PDisp],
    [TRexW; TByte 15; TByte 193; TSlash 1 0]);
  (* 23784-23797; 2759 *) (Inst "xaddw" [K16; K16] (Some (Op 1, 0)) None [PByte 102; PModRex false; PByte 15; PByte 193; PModRM; PSib; PDisp],
    [TByte 102; TByte 15; TByte 193; TSlash 1 0]);
  (* 23800-23813; 2759 *) (Inst "xaddw" [KMem; K16] (Some (Op 1, 0)) None [PByte 102; PModRex false; PByte 15; PByte 193; PModRM; PSib; PDisp],
    [TByte 102; TByte 15; TByte 193; TSlash 1 0]);
  (* 23818-23829; 2764 *) (Inst "xchgb" [K8; K8] (Some (Op 0, 1)) None [PModRex false; PByte 134; PModRM; PSib; PDisp],
    [TByte 134; TSlash 0 1]);
  (* 23832-23843; 2764 *) (Inst "xchgb" [K8; KMem] (Some (Op 0, 1)) None [PModRex false; PByte 134; PModRM; PSib; PDisp],
    [TByte 134; TSlash 0 1]);
  (* 23846-23857; 2765 *) (Inst "xchgb" [KMem; K8] (Some (Op 1, 0)) None [PModRex false; PByte 134; PModRM; PSib; PDisp],
    [TByte 134; TSlash 1 0]);
  (* 23862-23873; 2770 *) (Inst "xchgl" [K32; K32] (Some (Op 0, 1)) None [PModRex false; PByte 135; PModRM; PSib; PDisp],
    [TByte 135; TSlash 0 1]);
  (* 23876-23887; 2770 *) (Inst "xchgl" [K32; KMem] (Some (Op 0, 1)) None [PModRex false; PByte 135; PModRM; PSib; PDisp],
    [TByte 135; TSlash 0 1]);
  (* 23890-23898; 2771 *) (Inst "xchgl" [K32; KFixed FEax] None (Some 0) [PRioRex false; PBytePlus 144],
    [TByte 144; TPlus 0]);
  (* 23901-23912; 2772 *) (Inst "xchgl" [KMem; K32] (Some (Op 1, 0)) None [PModRex false; PByte 135; PModRM; PSib; PDisp],
    [TByte 135; TSlash 1 0]);
  (* 23915-23923; 2773 *) (Inst "xchgl" [KFixed FEax; K32] None (Some 1) [PRioRex false; PBytePlus 144],
    [TByte 144; TPlus 1]);
  (* 23928-23939; 2778 *) (Inst "xchgq" [K64; K64] (Some (Op 0, 1)) None [PModRex true; PByte 135; PModRM; PSib; PDisp],
    [TRexW; TByte 135; TSlash 0 1]);
  (* 23942-23953; 2778 *) (Inst "xchgq" [K64; KMem] (Some (Op 0, 1)) None [PModRex true; PByte 135; PModRM; PSib; PDisp],
    [TRexW; TByte 135; TSlash 0 1]);
  (* 23956-23964; 2779 *) (Inst "xchgq" [K64; KFixed FRax] None (Some 0) [PRioRex true; PBytePlus 144],
    [TRexW; TByte 144; TPlus 0]);
  (* 23967-23978; 2780 *) (Inst "xchgq" [KMem; K64] (Some (Op 1, 0)) None [PModRex true; PByte 135; PModRM; PSib; PDisp],
    [TRexW; TByte 135; TSlash 1 0]);
  (* 23981-23989; 2781 *) (Inst "xchgq" [KFixed FRax; K64] None (Some 1) [PRioRex true; PBytePlus 144],
    [TRexW; TByte 144; TPlus 1]);
  (* 23994-24006; 2786 *) (Inst "xchgw" [K16; K16] (Some (Op 0, 1)) None [PByte 102; PModRex false; PByte 135; PModRM; PSib; PDisp],
    [TByte 102; TByte 135; TSlash 0 1]);
  (* 24009-24021; 2786 *) (Inst "xchgw" [K16; KMem] (Some (Op 0, 1)) None [PByte 102; PModRex false; PByte 135; PModRM; PSib; PDisp],
    [TByte 102; TByte 135; TSlash 0 1]);
  (* 24024-24033; 2787 *) (Inst "xchgw" [K16; KFixed FAx] None (Some 0) [PByte 102; PRioRex false; PBytePlus 144],
    [TByte 102; TByte 144; TPlus 0]);
  (* 24036-24048; 2788 *) (Inst "xchgw" [KMem; K16] (Some (Op 1, 0)) None [PByte 102; PModRex false; PByte 135; PModRM; PSib; PDisp],
    [TByte 102; TByte 135; TSlash 1 0]);
  (* 24051-24060; 2789 *) (Inst "xchgw" [KFixed FAx; K16] None (Some 1) [PByte 102; PRioRex false; PBytePlus 144],
    [TByte 102; TByte 144; TPlus 1]);
  (* 24065-24076; 2794 *) (Inst "xorb" [K8; K8] (Some (Op 0, 1)) None [PModRex false; PByte 50; PModRM; PSib; PDisp],
    [TByte 50; TSlash 0 1]);
  (* 24079-24090; 2794 *) (Inst "xorb" [K8; KMem] (Some (Op 0, 1)) None [PModRex false; PByte 50; PModRM; PSib; PDisp],
    [TByte 50; TSlash 0 1]);
  (* 24093-24104; 2795 *) (Inst "xorb" [KMem; K8] (Some (Op 1, 0)) None [PModRex false; PByte 48; PModRM; PSib; PDisp],
    [TByte 48; TSlash 1 0]);
  (* 24107-24119; 2796 *) (Inst "xorb" [K8; KI8] (Some (Digit 6, 0)) None [PModRex false; PByte 128; PModRM; PSib; PDisp; PImm 1],
    [TByte 128; TDigit 6 0; TImm 1 1]);
  (* 24122-24134; 2796 *) (Inst "xorb" [KMem; KI8] (Some (Digit 6, 0)) None [PModRex false; PByte 128; PModRM; PSib; PDisp; PImm 1],
    [TByte 128; TDigit 6 0; TImm 1 1]);
  (* 24137-24144; 2797 *) (Inst "xorb" [KFixed FAl; KI8] None None [PByte 52; PImm 1],
    [TByte 52; TImm 1 1]);
  (* 24149-24160; 2802 *) (Inst "xorl" [K32; K32] (Some (Op 0, 1)) None [PModRex false; PByte 51; PModRM; PSib; PDisp],
    [TByte 51; TSlash 0 1]);
  (* 24163-24174; 2802 *) (Inst "xorl" [K32; KMem] (Some (Op 0, 1)) None [PModRex false; PByte 51; PModRM; PSib; PDisp],
    [TByte 51; TSlash 0 1]);
  (* 24177-24188; 2803 *) (Inst "xorl" [KMem; K32] (Some (Op 1, 0)) None [PModRex false; PByte 49; PModRM; PSib; PDisp],
    [TByte 49; TSlash 1 0]);
  (* 24191-24203; 2804 *) (Inst "xorl" [K32; KI8] (Some (Digit 6, 0)) None [PModRex false; PByte 131; PModRM; PSib; PDisp; PImm 1],
    [TByte 131; TDigit 6 0; TImm 1 1]);
  (* 24206-24218; 2804 *) (Inst "xorl" [KMem; KI8] (Some (Digit 6, 0)) None [PModRex false; PByte 131; PModRM; PSib; PDisp; PImm 1],
    [TByte 131; TDigit 6 0; TImm 1 1]);
  (* 24221-24233; 2805 *) (Inst "xorl" [K32; KI32] (Some (Digit 6, 0)) None [PModRex false; PByte 129; PModRM; PSib; PDisp; PImm 1],
    [TByte 129; TDigit 6 0; TImm 4 1]);
  (* 24236-24248; 2805 *) (Inst "xorl" [KMem; KI32] (Some (Digit 6, 0)) None [PModRex false; PByte 129; PModRM; PSib; PDisp; PImm 1],
    [TByte 129; TDigit 6 0; TImm 4 1]);
  (* 24251-24258; 2806 *) (Inst "xorl" [KFixed FEax; KI32] None None [PByte 53; PImm 1],
    [TByte 53; TImm 4 1]);
  (* 24263-24276; 2811 *) (Inst "xorpd" [KX; KX] (Some (Op 0, 1)) None [PByte 102; PModRex false; PByte 15; PByte 87; PModRM; PSib; PDisp],
    [TByte 102; TByte 15; TByte 87; TSlash 0 1]);
  (* 24279-24292; 2811 *) (Inst "xorpd" [KX; KMem] (Some (Op 0, 1)) None [PByte 102; PModRex false; PByte 15; PByte 87; PModRM; PSib; PDisp],
    [TByte 102; TByte 15; TByte 87; TSlash 0 1]);
  (* 24297-24309; 2816 *) (Inst "xorps" [KX; KX] (Some (Op 0, 1)) None [PModRex false; PByte 15; PByte 87; PModRM; PSib; PDisp],
    [TByte 15; TByte 87; TSlash 0 1]);
  (* 24312-24324; 2816 *) (Inst "xorps" [KX; KMem] (Some (Op 0, 1)) None [PModRex false; PByte 15; PByte 87; PModRM; PSib; PDisp],
    [TByte 15; TByte 87; TSlash 0 1]);
  (* 24329-24340; 2821 *) (Inst "xorq" [K64; K64] (Some (Op 0, 1)) None [PModRex true; PByte 51; PModRM; PSib; PDisp],
    [TRexW; TByte 51; TSlash 0 1]);
  (* 24343-24354; 2821 *) (Inst "xorq" [K64; KMem] (Some (Op 0, 1)) None [PModRex true; PByte 51; PModRM; PSib; PDisp],
    [TRexW; TByte 51; TSlash 0 1]);
  (* 24357-24368; 2822 *) (Inst "xorq" [KMem; K64] (Some (Op 1, 0)) None [PModRex true; PByte 49; PModRM; PSib; PDisp],
    [TRexW; TByte 49; TSlash 1 0]);
  (* 24371-24383; 2823 *) (Inst "xorq" [K64; KI8] (Some (Digit 6, 0)) None [PModRex true; PByte 131; PModRM; PSib; PDisp; PImm 1],
    [TRexW; TByte 131; TDigit 6 0; TImm 1 1]);
  (* 24386-24398; 2823 *) (Inst "xorq" [KMem; KI8] (Some (Digit 6, 0)) None [PModRex true; PByte 131; PModRM; PSib; PDisp; PImm 1],
    [TRexW; TByte 131; TDigit 6 0; TImm 1 1]);
  (* 24401-24413; 2824 *) (Inst "xorq" [K64; KI32] (Some (Digit 6, 0)) None [PModRex true; PByte 129; PModRM; PSib; PDisp; PImm 1],
    [TRexW; TByte 129; TDigit 6 0; TImm 4 1]);
  (* 24416-24428; 2824 *) (Inst "xorq" [KMem; KI32] (Some (Digit 6, 0)) None [PModRex true; PByte 129; PModRM; PSib; PDisp; PImm 1],
    [TRexW; TByte 129; TDigit 6 0; TImm 4 1]);
  (* 24431-24439; 2825 *) (Inst "xorq" [KFixed FRax; KI32] None None [PRex true; PByte 53; PImm 1],
    [TRexW; TByte 53; TImm 4 1]);
  (* 24444-24456; 2830 *) (Inst "xorw" [K16; K16] (Some (Op 0, 1)) None [PByte 102; PModRex false; PByte 51; PModRM; PSib; PDisp],
    [TByte 102; TByte 51; TSlash 0 1]);
  (* 24459-24471; 2830 *) (Inst "xorw" [K16; KMem] (Some (Op 0, 1)) None [PByte 102; PModRex false; PByte 51; PModRM; PSib; PDisp],
    [TByte 102; TByte 51; TSlash 0 1]);
  (* 24474-24486; 2831 *) (Inst "xorw" [KMem; K16] (Some (Op 1, 0)) None [PByte 102; PModRex false; PByte 49; PModRM; PSib; PDisp],
    [TByte 102; TByte 49; TSlash 1 0]);
  (* 24489-24502; 2832 *) (Inst "xorw" [K16; KI8] (Some (Digit 6, 0)) None [PByte 102; PModRex false; PByte 131; PModRM; PSib; PDisp; PImm 1],
    [TByte 102; TByte 131; TDigit 6 0; TImm 1 1]);
  (* 24505-24518; 2832 *) (Inst "xorw" [KMem; KI8] (Some (Digit 6, 0)) None [PByte 102; PModRex false; PByte 131; PModRM; PSib; PDisp; PImm 1],
    [TByte 102; TByte 131; TDigit 6 0; TImm 1 1]);
  (* 24521-24534; 2833 *) (Inst "xorw" [K16; KI16] (Some (Digit 6, 0)) None [PByte 102; PModRex false; PByte 129; PModRM; PSib; PDisp; PImm 1],
    [TByte 102; TByte 129; TDigit 6 0; TImm 2 1]);
  (* 24537-24550; 2833 *) (Inst "xorw" [KMem; KI16] (Some (Digit 6, 0)) None [PByte 102; PModRex false; PByte 129; PModRM; PSib; PDisp; PImm 1],
    [TByte 102; TByte 129; TDigit 6 0; TImm 2 1]);
  (* 24553-24561; 2834 *) (Inst "xorw" [KFixed FAx; KI16] None None [PByte 102; PByte 53; PImm 1],
    [TByte 102; TByte 53; TImm 2 1]);
  (* 24566-24574; 2839 *) (Inst "xsetbv" [] None None [PByte 15; PByte 1; PByte 209],
    [TByte 15; TByte 1; TByte 209])].

Definition table : list (inst * list token) :=
  table0 ++ table1 ++ table2 ++ table3 ++ table4 ++ table5 ++ table6 ++ table7 ++ table8 ++ table9 ++ table10 ++ table11 ++ table12 ++ table13.
