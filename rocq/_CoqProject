-Q theories Verif
theories/Base.v
theories/BaseProofs.v
theories/Cbor.v
theories/CborProofs.v
theories/Types.v
theories/Seq.v
theories/Query.v
theories/QuerySpec.v
theories/World.v
theories/Dump.v
theories/Read.v
theories/Write.v
theories/Api.v
theories/Iter.v
theories/History.v
theories/Spec.v
theories/IterSpec.v
theories/Instance.v
theories/SeqProofs.v
theories/Ghost.v
theories/Frame.v
theories/IterFrame.v
theories/ReadProofs.v
theories/Packable.v
theories/WriteProofs.v
theories/PackProofs.v
theories/QueryProofs.v
theories/RetainProofs.v
theories/RepairProofs.v
theories/NoPurged.v
theories/ApiProofs.v
theories/SysProofs.v
theories/IterProofs.v
theories/IndexProofs.v
theories/HistProofs.v
theories/LogProofs.v
theories/Example.v
theories/PropsWrite.v
theories/PropsRead.v
theories/PropsQuery.v
theories/PropsMaintain.v
theories/PropsIter.v
theories/PropsIndex.v
theories/PropsShape.v
theories/PropsRefuted.v
theories/PropsSeq.v
theories/PropsLog.v
theories/PropsTerm.v
theories/PropsLarge.v
theories/PropsKeys.v
theories/MemStore.v
theories/PropsStore.v
theories/Tags.v
theories/Compact.v
theories/TagTypes.v
theories/TagProofs.v
theories/PropsTags.v
theories/PropsKeyTags.v
theories/Stream.v
theories/PropsStream.v
theories/CanonProofs.v
theories/PropsCanon.v
theories/PropsPartial.v
theories/PropsSecret.v
theories/PropsProgress.v
theories/PropsForget.v
theories/PropsLocal.v
theories/PropsReuse.v
theories/PropsCost.v
theories/PropsHeight.v
theories/PropsAsk.v
theories/PropsWaste.v
theories/PropsCheck.v
theories/PropsBytes.v
theories/PropsCompact.v
theories/PropsDump.v
theories/PropsNear.v
theories/PropsTagged.v
theories/PropsRefine.v
theories/PropsShared.v
theories/Links.v
theories/PropsLinks.v
theories/Stores.v
theories/PropsIo.v
theories/PropsConfig.v
theories/Cli.v
theories/PropsCli.v
theories/Display.v
theories/PropsDisplay.v
theories/Pubsub.v
theories/PropsPubsub.v
theories/ThreadZstd.v
theories/PropsThreadZstd.v
theories/DumpTree.v
theories/PropsDumpTree.v
theories/Commands.v
theories/PropsCommands.v
theories/ReadCommands.v
theories/PropsReadCommands.v
theories/Json.v
theories/PropsJson.v
theories/PropsEvents.v
theories/TagCommands.v
theories/PropsFilter.v
theories/BenchCommand.v
theories/PropsBench.v
theories/Transaction.v
theories/PropsTransaction.v
theories/PropsReplica.v
theories/PropsSweep.v
theories/PropsTail.v
theories/PropsKeep.v
theories/PropsFilterDump.v
theories/Assumptions.v
