-Q theories Verif
theories/Types.v
theories/World.v
theories/ValidSize.v
theories/Emplace.v
theories/SizedVec.v
theories/AlignedVec.v
theories/UnalignedVec.v
theories/Api.v
theories/Spec.v
theories/Adaptors.v
theories/Findings.v
theories/Bytes.v
theories/Arith.v
theories/Wp.v
theories/Mem.v
theories/Repr.v
theories/Access.v
theories/Reserve.v
theories/Realign.v
theories/Orep.v
theories/Push.v
theories/Deal.v
theories/PushWith.v
theories/Shell.v
theories/Shrink.v
theories/Insert.v
theories/Take.v
theories/Pop.v
theories/Box.v
theories/Iter.v
theories/Calls.v
theories/AnyCalls.v
theories/GetMut.v
theories/DropVec.v
theories/Family.v
theories/Build.v
theories/PushAll.v
theories/Wrote.v
theories/Sources.v
theories/Copies.v
theories/Obs.v
theories/Room.v
theories/PropPush.v
theories/PropReserve.v
theories/PropAccess.v
theories/PropEdit.v
theories/PropEmplace.v
theories/PropCompare.v
theories/PropWhole.v
theories/PropShrink.v
theories/PropUnsize.v
theories/Zst.v
theories/History.v
theories/PropHistory.v
theories/Aligns.v
theories/Rooms.v
theories/Convert.v
theories/StdVec.v
theories/PropUniform.v
theories/PropCost.v
theories/PropAdapt.v
theories/PropConvert.v
theories/Macros.v
theories/PropMacro.v
theories/RepoTests.v
theories/PropLimits.v
theories/PropInsert.v
theories/Width.v
theories/PropWidth.v
theories/PropCases.v
theories/PropMemory.v
theories/PropValues.v
theories/PropBorrow.v
theories/PropKinds.v
theories/PropValid.v
theories/PropRoom.v
theories/PropOutside.v
theories/PropOdd.v
theories/PropUnfair.v
theories/PropPromise.v
theories/PropFill.v
theories/PropStack.v
theories/PropAsk.v
