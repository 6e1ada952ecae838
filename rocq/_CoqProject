-Q theories Verif
theories/Asm/Examples.v
theories/Asm/Manual.v
theories/Asm/Model.v
theories/Asm/Proofs.v
theories/Asm/ProofsApart.v
theories/Asm/ProofsBits.v
theories/Asm/Properties.v
theories/Asm/Spec.v
theories/Asm/Table.v
theories/Base/Assoc.v
theories/Base/Base.v
theories/Base/BaseFacts.v
theories/Base/Buf.v
theories/Base/BufFacts.v
theories/Base/Vec.v
theories/Base/VecFacts.v
theories/Branch/Examples.v
theories/Branch/Model.v
theories/Branch/Proofs.v
theories/Branch/ProofsMatch.v
theories/Branch/ProofsParts.v
theories/Branch/Properties.v
theories/Branch/Spec.v
theories/Build/Examples.v
theories/Build/Model.v
theories/Build/Proofs.v
theories/Build/ProofsSetup.v
theories/Build/Properties.v
theories/Build/Spec.v
theories/Closure/Examples.v
theories/Closure/Model.v
theories/Closure/ProofsDet.v
theories/Closure/ProofsDriver.v
theories/Closure/ProofsGroup.v
theories/Closure/ProofsNorm.v
theories/Closure/ProofsScope.v
theories/Closure/ProofsSim.v
theories/Closure/ProofsTop.v
theories/Closure/ProofsTotal.v
theories/Closure/Properties.v
theories/Closure/Rel.v
theories/Closure/Spec.v
theories/Codegen/Alu.v
theories/Codegen/Convention.v
theories/Codegen/Examples.v
theories/Codegen/Facts.v
theories/Codegen/Float.v
theories/Codegen/Foreign.v
theories/Codegen/Machine.v
theories/Codegen/Model.v
theories/Codegen/Operators.v
theories/Codegen/ProofsAlloc.v
theories/Codegen/ProofsBinary.v
theories/Codegen/ProofsBlock.v
theories/Codegen/ProofsBuiltin.v
theories/Codegen/ProofsCArgs.v
theories/Codegen/ProofsCall.v
theories/Codegen/ProofsCond.v
theories/Codegen/ProofsCont.v
theories/Codegen/ProofsEach.v
theories/Codegen/ProofsEnv.v
theories/Codegen/ProofsEval.v
theories/Codegen/ProofsForeign.v
theories/Codegen/ProofsFrame.v
theories/Codegen/ProofsFrameSize.v
theories/Codegen/ProofsFun.v
theories/Codegen/ProofsGen.v
theories/Codegen/ProofsHeap.v
theories/Codegen/ProofsInv.v
theories/Codegen/ProofsJump.v
theories/Codegen/ProofsLet.v
theories/Codegen/ProofsMain.v
theories/Codegen/ProofsNum.v
theories/Codegen/ProofsRefute.v
theories/Codegen/ProofsRun.v
theories/Codegen/ProofsSimple.v
theories/Codegen/ProofsStatic.v
theories/Codegen/ProofsStruct.v
theories/Codegen/ProofsTop.v
theories/Codegen/Properties.v
theories/Codegen/Spec.v
theories/Collect/Examples.v
theories/Collect/Model.v
theories/Collect/ProofsDeps.v
theories/Collect/ProofsOrder.v
theories/Collect/ProofsRun.v
theories/Collect/Properties.v
theories/Collect/Spec.v
theories/Data/Examples.v
theories/Data/Model.v
theories/Data/Proofs.v
theories/Data/ProofsExpand.v
theories/Data/ProofsTypes.v
theories/Data/Properties.v
theories/Data/Spec.v
theories/Elf/Examples.v
theories/Elf/Model.v
theories/Elf/ProofsObject.v
theories/Elf/ProofsRead.v
theories/Elf/ProofsRefuse.v
theories/Elf/ProofsSymbols.v
theories/Elf/ProofsWrite.v
theories/Elf/Properties.v
theories/Elf/Spec.v
theories/Frame/Examples.v
theories/Frame/Model.v
theories/Frame/Proofs.v
theories/Frame/ProofsAlloc.v
theories/Frame/ProofsFun.v
theories/Frame/Properties.v
theories/Frame/Spec.v
theories/Hamt/Examples.v
theories/Hamt/Model.v
theories/Hamt/ProofsBits.v
theories/Hamt/ProofsMap.v
theories/Hamt/ProofsOverflow.v
theories/Hamt/ProofsTree.v
theories/Hamt/Properties.v
theories/Hamt/Spec.v
theories/HashMap/Examples.v
theories/HashMap/Model.v
theories/HashMap/Proofs.v
theories/HashMap/ProofsArith.v
theories/HashMap/ProofsMap.v
theories/HashMap/ProofsSpec.v
theories/HashMap/ProofsTable.v
theories/HashMap/Properties.v
theories/HashMap/Spec.v
theories/Heap2Stack/Examples.v
theories/Heap2Stack/Model.v
theories/Heap2Stack/Proofs.v
theories/Heap2Stack/ProofsErase.v
theories/Heap2Stack/ProofsMain.v
theories/Heap2Stack/ProofsSafe.v
theories/Heap2Stack/ProofsSim.v
theories/Heap2Stack/Properties.v
theories/Heap2Stack/Spec.v
theories/Init/Examples.v
theories/Init/Model.v
theories/Init/Proofs.v
theories/Init/Properties.v
theories/Init/Spec.v
theories/Inline/Examples.v
theories/Inline/Model.v
theories/Inline/Proofs.v
theories/Inline/ProofsNew.v
theories/Inline/ProofsTop.v
theories/Inline/ProofsWrong.v
theories/Inline/Properties.v
theories/Inline/Spec.v
theories/Instances/Examples.v
theories/Instances/Model.v
theories/Instances/ProofsBase.v
theories/Instances/ProofsBuild.v
theories/Instances/ProofsDecl.v
theories/Instances/ProofsHierarchy.v
theories/Instances/ProofsInstall.v
theories/Instances/ProofsLists.v
theories/Instances/ProofsMain.v
theories/Instances/ProofsOverlap.v
theories/Instances/ProofsRefuted.v
theories/Instances/ProofsSearch.v
theories/Instances/Properties.v
theories/Instances/Spec.v
theories/Intern/Model.v
theories/Intern/Proofs.v
theories/Intern/Properties.v
theories/Intern/Spec.v
theories/IoPath/Examples.v
theories/IoPath/Model.v
theories/IoPath/Proofs.v
theories/IoPath/ProofsName.v
theories/IoPath/ProofsPath.v
theories/IoPath/Properties.v
theories/IoPath/Spec.v
theories/Ir/Examples.v
theories/Ir/Model.v
theories/Ir/Proofs.v
theories/Ir/ProofsEval.v
theories/Ir/ProofsTyping.v
theories/Ir/Properties.v
theories/Ir/RtInd.v
theories/Ir/Spec.v
theories/Ir/Typing.v
theories/Jit/Examples.v
theories/Jit/Model.v
theories/Jit/Proofs.v
theories/Jit/ProofsAdd.v
theories/Jit/ProofsEngine.v
theories/Jit/ProofsFail.v
theories/Jit/ProofsLoad.v
theories/Jit/ProofsTotal.v
theories/Jit/Properties.v
theories/Jit/Spec.v
theories/Kind/Model.v
theories/Kind/Proofs.v
theories/Kind/ProofsApi.v
theories/Kind/ProofsUnify.v
theories/Kind/Properties.v
theories/Kind/Spec.v
theories/KindInfer/Examples.v
theories/KindInfer/Model.v
theories/KindInfer/Proofs.v
theories/KindInfer/ProofsFix.v
theories/KindInfer/ProofsGroup.v
theories/KindInfer/ProofsModule.v
theories/KindInfer/ProofsModuleTop.v
theories/KindInfer/ProofsRefuted.v
theories/KindInfer/ProofsRoot.v
theories/KindInfer/ProofsRun.v
theories/KindInfer/ProofsSort.v
theories/KindInfer/ProofsStep.v
theories/KindInfer/ProofsTop.v
theories/KindInfer/Properties.v
theories/KindInfer/Spec.v
theories/Layout/Examples.v
theories/Layout/Model.v
theories/Layout/Proofs.v
theories/Layout/ProofsClass.v
theories/Layout/ProofsResolve.v
theories/Layout/Properties.v
theories/Layout/Spec.v
theories/Lexer/Model.v
theories/Lexer/Proofs.v
theories/Lexer/ProofsNum.v
theories/Lexer/Properties.v
theories/Lexer/Spec.v
theories/Loader/Model.v
theories/Loader/Proofs.v
theories/Loader/Properties.v
theories/Loader/Spec.v
theories/Matcher/Model.v
theories/Matcher/Proofs.v
theories/Matcher/Properties.v
theories/Matcher/Spec.v
theories/Native/Examples.v
theories/Native/Layouts.v
theories/Native/Model.v
theories/Native/Proofs.v
theories/Native/ProofsConst.v
theories/Native/ProofsMain.v
theories/Native/ProofsRodata.v
theories/Native/Properties.v
theories/Native/Spec.v
theories/Obj/Examples.v
theories/Obj/Model.v
theories/Obj/Proofs.v
theories/Obj/ProofsLink.v
theories/Obj/ProofsProduce.v
theories/Obj/ProofsStore.v
theories/Obj/Properties.v
theories/Obj/Spec.v
theories/OrdMap/Examples.v
theories/OrdMap/Model.v
theories/OrdMap/Proofs.v
theories/OrdMap/ProofsInsert.v
theories/OrdMap/ProofsMap.v
theories/OrdMap/ProofsRemove.v
theories/OrdMap/ProofsSpec.v
theories/OrdMap/Properties.v
theories/OrdMap/Spec.v
theories/OrdMap/SpecTree.v
theories/Parser/Model.v
theories/Parser/Proofs.v
theories/Parser/ProofsPrim.v
theories/Parser/ProofsSound.v
theories/Parser/Properties.v
theories/Parser/Spec.v
theories/Path/Facts.v
theories/Path/Model.v
theories/Path/Proofs.v
theories/Path/Properties.v
theories/Path/Spec.v
theories/Pattern/Examples.v
theories/Pattern/Model.v
theories/Pattern/Proofs.v
theories/Pattern/ProofsCheck.v
theories/Pattern/Properties.v
theories/Pattern/Spec.v
theories/Preproc/Examples.v
theories/Preproc/Model.v
theories/Preproc/Proofs.v
theories/Preproc/ProofsExpand.v
theories/Preproc/Properties.v
theories/Preproc/Spec.v
theories/RbMap/Examples.v
theories/RbMap/Model.v
theories/RbMap/Proofs.v
theories/RbMap/ProofsMap.v
theories/RbMap/Properties.v
theories/RbMap/Spec.v
theories/Resolve/Examples.v
theories/Resolve/Model.v
theories/Resolve/ProofsBase.v
theories/Resolve/ProofsDone.v
theories/Resolve/ProofsExpr.v
theories/Resolve/ProofsFaults.v
theories/Resolve/ProofsFaults2.v
theories/Resolve/ProofsModule.v
theories/Resolve/Properties.v
theories/Resolve/Spec.v
theories/Resolve/SpecFaults.v
theories/Scope/Examples.v
theories/Scope/Model.v
theories/Scope/Proofs.v
theories/Scope/ProofsPort.v
theories/Scope/Properties.v
theories/Scope/Spec.v
theories/Sexp/Model.v
theories/Sexp/Proofs.v
theories/Sexp/Properties.v
theories/Sexp/Spec.v
theories/Stack/Examples.v
theories/Stack/Facts.v
theories/Stack/Machine.v
theories/Stack/Model.v
theories/Stack/Proofs.v
theories/Stack/ProofsMove.v
theories/Stack/ProofsRefute.v
theories/Stack/ProofsValue.v
theories/Stack/Properties.v
theories/Stack/Spec.v
theories/Str/Model.v
theories/Str/Proofs.v
theories/Str/Properties.v
theories/Str/Spec.v
theories/Strings/Examples.v
theories/Strings/Model.v
theories/Strings/Proofs.v
theories/Strings/ProofsOrder.v
theories/Strings/ProofsSplit.v
theories/Strings/Properties.v
theories/Strings/Spec.v
theories/Syntax/Examples.v
theories/Syntax/ExamplesDecl.v
theories/Syntax/Model.v
theories/Syntax/ModelDecl.v
theories/Syntax/Proofs.v
theories/Syntax/ProofsDecl.v
theories/Syntax/ProofsDeclTop.v
theories/Syntax/ProofsDefine.v
theories/Syntax/ProofsExprs.v
theories/Syntax/ProofsRuns.v
theories/Syntax/ProofsTop.v
theories/Syntax/ProofsTypes.v
theories/Syntax/ProofsUnique.v
theories/Syntax/Properties.v
theories/Syntax/Spec.v
theories/Syntax/SpecBare.v
theories/Syntax/SpecDecl.v
theories/Topo/Model.v
theories/Topo/Proofs.v
theories/Topo/ProofsTarjan.v
theories/Topo/Properties.v
theories/Topo/Spec.v
theories/Types/Model.v
theories/Types/Proofs.v
theories/Types/ProofsApi.v
theories/Types/ProofsExact.v
theories/Types/ProofsMain.v
theories/Types/ProofsReach.v
theories/Types/ProofsUnify.v
theories/Types/Properties.v
theories/Types/Spec.v
theories/Utf8/Examples.v
theories/Utf8/Model.v
theories/Utf8/Proofs.v
theories/Utf8/ProofsMain.v
theories/Utf8/ProofsPrefix.v
theories/Utf8/Properties.v
theories/Utf8/Spec.v
theories/Validate/Examples.v
theories/Validate/Model.v
theories/Validate/Proofs.v
theories/Validate/ProofsTyped.v
theories/Validate/Properties.v
theories/Validate/Spec.v
theories/Vector/Examples.v
theories/Vector/Model.v
theories/Vector/ProofsArray.v
theories/Vector/ProofsInv.v
theories/Vector/ProofsMem.v
theories/Vector/ProofsOps.v
theories/Vector/ProofsRun.v
theories/Vector/ProofsStep.v
theories/Vector/ProofsVec.v
theories/Vector/Properties.v
theories/Vector/Spec.v
theories/Xxhash/Examples.v
theories/Xxhash/Model.v
theories/Xxhash/Proofs.v
theories/Xxhash/ProofsBits.v
theories/Xxhash/ProofsDigest.v
theories/Xxhash/ProofsKey.v
theories/Xxhash/Properties.v
theories/Xxhash/Spec.v
