-Q theories Verif
theories/Base.v
theories/Scalar.v
theories/ScalarFacts.v
theories/P_Scalar.v
theories/ConstInt.v
theories/ConstIntFacts.v
theories/P_ConstInt.v
theories/Prelude.v
theories/PreludeFacts.v
theories/UtfFacts.v
theories/P_Prelude.v
theories/EnumBits.v
theories/EnumBitsFacts.v
theories/P_EnumBits.v
theories/Expr.v
theories/Asg.v
theories/Gen.v
theories/Decode.v
theories/Encode.v
theories/Spec.v
theories/DecRef.v
theories/EncWf.v
theories/EncRef.v
theories/RtWf.v
theories/RoundTrip.v
theories/Relax.v
theories/World.v
theories/Sample.v
theories/ValidSpec.v
theories/Valid.v
theories/Local.v
theories/Reenc.v
theories/CoderFacts.v
theories/P_Coder.v
theories/P_Coder2.v
theories/P_Coder3.v
theories/Tokens.v
theories/TokSpec.v
theories/TokFacts.v
theories/P_Tok.v
theories/Ast.v
theories/Parse.v
theories/Grammar.v
theories/ParseFacts.v
theories/ParseSound.v
theories/ParseComplete.v
theories/Print.v
theories/PrintFacts.v
theories/P_Parse.v
theories/Front.v
theories/Program.v
theories/FrontFacts.v
theories/TypeFacts.v
theories/P_Types.v
theories/P_Args.v
theories/ElabSpec.v
theories/ElabFacts.v
theories/ElabTypes.v
theories/ElabProgram.v
theories/P_Program.v
theories/ReadBack.v
theories/P_ReadBack.v
theories/ImportSpec.v
theories/P_Imports.v
theories/CycleSpec.v
theories/P_Cycles.v
theories/KindSpec.v
theories/KindFacts.v
theories/ConstSpec.v
theories/ConstFacts.v
theories/ConstProg.v
theories/LowerSpec.v
theories/P_Const.v
theories/ScopeSpec.v
theories/ScopeDec.v
theories/ScopeEnc.v
theories/P_Scope.v
theories/Lower.v
theories/ScopeFront.v
theories/P_Pipeline.v
theories/ChunkFacts.v
theories/P_Chunks.v
theories/PreludeNames.v
theories/P_Lengths.v
theories/Data.v
theories/DataFacts.v
theories/P_Data.v
theories/Safe.v
theories/SafeFacts.v
theories/SafeDec.v
theories/P_Safe.v
theories/Examples.v
theories/ExampleFacts.v
theories/P_Examples.v
theories/Tame.v
theories/Heads.v
theories/NoPanic.v
theories/P_Crash.v
theories/Base64.v
theories/Base64Facts.v
theories/P_Base64.v
theories/Driver.v
theories/P_Driver.v
theories/Derives.v
theories/P_Derives.v
theories/GenSpec.v
theories/GenFacts.v
theories/GenFront.v
theories/P_Generate.v
theories/Device.v
theories/DeviceFacts.v
theories/P_Device.v
theories/Fault.v
theories/FaultFacts.v
theories/P_Fault.v
theories/EncSafe.v
theories/EncSafeFacts.v
theories/P_EncSafe.v
theories/EncOrd.v
theories/P_EncOrd.v
theories/P_Stream.v
theories/Sizes.v
theories/SizeFacts.v
theories/P_Sizes.v
theories/Modular.v
theories/P_Modular.v
theories/P_Depth.v
theories/Leaves.v
theories/P_Leaves.v
theories/P_Consts.v
theories/P_Layout.v
theories/P_Compose.v
theories/P_Evolve.v
theories/P_Variants.v
theories/P_Group.v
theories/P_Alias.v
