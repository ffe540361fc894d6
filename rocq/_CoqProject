-Q theories Verif
theories/Model/Accept.v
theories/Model/Audio.v
theories/Model/Auth.v
theories/Model/Base.v
theories/Model/Base64.v
theories/Model/BroadcastSys.v
theories/Model/Catalog.v
theories/Model/CatalogJson.v
theories/Model/Clock.v
theories/Model/Codec.v
theories/Model/Coding.v
theories/Model/Discovery.v
theories/Model/Element.v
theories/Model/ErrorCode.v
theories/Model/Frame.v
theories/Model/FrameSys.v
theories/Model/GroupSys.v
theories/Model/GstSource.v
theories/Model/Import.v
theories/Model/ImportCodec.v
theories/Model/JsAudio.v
theories/Model/JsCapture.v
theories/Model/JsCatalog.v
theories/Model/JsChat.v
theories/Model/JsConnect.v
theories/Model/JsEmitter.v
theories/Model/JsEncode.v
theories/Model/JsHold.v
theories/Model/JsMic.v
theories/Model/JsPeers.v
theories/Model/JsPublish.v
theories/Model/JsSignals.v
theories/Model/JsTrack.v
theories/Model/JsVideo.v
theories/Model/JsWatch.v
theories/Model/JsWire.v
theories/Model/Json.v
theories/Model/Live.v
theories/Model/Location.v
theories/Model/Map.v
theories/Model/Media.v
theories/Model/MediaRead.v
theories/Model/Message.v
theories/Model/Native.v
theories/Model/Net.v
theories/Model/OriginSys.v
theories/Model/Player.v
theories/Model/Pool.v
theories/Model/Publisher.v
theories/Model/ReceiverSys.v
theories/Model/Relay.v
theories/Model/Render.v
theories/Model/Room.v
theories/Model/Session.v
theories/Model/Sink.v
theories/Model/Spread.v
theories/Model/SpreadAsk.v
theories/Model/Stream.v
theories/Model/SubscriberSys.v
theories/Model/Text.v
theories/Model/Token.v
theories/Model/TrackSys.v
theories/Model/TrackUse.v
theories/Model/Transfer.v
theories/Model/Web.v
theories/Model/WebPublish.v
theories/Spec/AcceptSpec.v
theories/Spec/AskSpec.v
theories/Spec/AudioSpec.v
theories/Spec/AuthSpec.v
theories/Spec/BroadcastSpec.v
theories/Spec/CatalogJsonSpec.v
theories/Spec/CatalogSpec.v
theories/Spec/ClockSpec.v
theories/Spec/CodecSpec.v
theories/Spec/CodingSpec.v
theories/Spec/DiscoverySpec.v
theories/Spec/ElementSpec.v
theories/Spec/ErrorSpec.v
theories/Spec/FileSpec.v
theories/Spec/FrameSpec.v
theories/Spec/GroupSpec.v
theories/Spec/GstSourceSpec.v
theories/Spec/ImportCodecSpec.v
theories/Spec/ImportSpec.v
theories/Spec/JsAudioSpec.v
theories/Spec/JsCaptureSpec.v
theories/Spec/JsCatalogSpec.v
theories/Spec/JsChatSpec.v
theories/Spec/JsConnectSpec.v
theories/Spec/JsEmitterSpec.v
theories/Spec/JsEncodeSpec.v
theories/Spec/JsHoldSpec.v
theories/Spec/JsMicSpec.v
theories/Spec/JsPeersSpec.v
theories/Spec/JsPublishSpec.v
theories/Spec/JsSignalsSpec.v
theories/Spec/JsTrackSpec.v
theories/Spec/JsVideoSpec.v
theories/Spec/JsWatchSpec.v
theories/Spec/JsWireSpec.v
theories/Spec/JsonSpec.v
theories/Spec/LiveSpec.v
theories/Spec/LocationSpec.v
theories/Spec/MediaReadSpec.v
theories/Spec/MediaSpec.v
theories/Spec/MessageSpec.v
theories/Spec/NativeSpec.v
theories/Spec/NetSpec.v
theories/Spec/OriginSpec.v
theories/Spec/PlayerSpec.v
theories/Spec/PoolSpec.v
theories/Spec/PublisherSpec.v
theories/Spec/ReceiverSpec.v
theories/Spec/RelaySpec.v
theories/Spec/RenderSpec.v
theories/Spec/RestSpec.v
theories/Spec/RoomSpec.v
theories/Spec/SessionSpec.v
theories/Spec/SinkSpec.v
theories/Spec/SpreadSpec.v
theories/Spec/StreamSpec.v
theories/Spec/SubscriberSpec.v
theories/Spec/TokenSpec.v
theories/Spec/TrackSpec.v
theories/Spec/TransferSpec.v
theories/Spec/WebPublishSpec.v
theories/Spec/WebSpec.v
theories/Proofs/AcceptP.v
theories/Proofs/AnnounceP.v
theories/Proofs/AnswerP.v
theories/Proofs/AudioPlayP.v
theories/Proofs/AudioSendP.v
theories/Proofs/AuthP.v
theories/Proofs/Base64P.v
theories/Proofs/BaseP.v
theories/Proofs/BroadcastP.v
theories/Proofs/BroadcastTop.v
theories/Proofs/CatalogJsonP.v
theories/Proofs/CatalogOrderP.v
theories/Proofs/CatalogP.v
theories/Proofs/CatalogPanicP.v
theories/Proofs/CatalogPrintP.v
theories/Proofs/CatalogTaskP.v
theories/Proofs/ClockP.v
theories/Proofs/CodecAv1P.v
theories/Proofs/CodecP.v
theories/Proofs/CodingP.v
theories/Proofs/CodingTop.v
theories/Proofs/DiscoveryP.v
theories/Proofs/ElementP.v
theories/Proofs/FileBoxP.v
theories/Proofs/FileP.v
theories/Proofs/FrameP.v
theories/Proofs/GroupP.v
theories/Proofs/GroupTop.v
theories/Proofs/GstSourceP.v
theories/Proofs/ImportCodecP.v
theories/Proofs/ImportNameP.v
theories/Proofs/ImportP.v
theories/Proofs/ImportReadP.v
theories/Proofs/ImportSafeP.v
theories/Proofs/ImportSampleP.v
theories/Proofs/JsAudioP.v
theories/Proofs/JsCaptureP.v
theories/Proofs/JsCatalogBackP.v
theories/Proofs/JsCatalogImportP.v
theories/Proofs/JsCatalogP.v
theories/Proofs/JsChatP.v
theories/Proofs/JsConnectP.v
theories/Proofs/JsEmitterP.v
theories/Proofs/JsEncodeP.v
theories/Proofs/JsGroupP.v
theories/Proofs/JsHearP.v
theories/Proofs/JsHoldP.v
theories/Proofs/JsMicP.v
theories/Proofs/JsPeersP.v
theories/Proofs/JsPublishP.v
theories/Proofs/JsSignalsP.v
theories/Proofs/JsTrackP.v
theories/Proofs/JsVideoP.v
theories/Proofs/JsWatchP.v
theories/Proofs/JsWireP.v
theories/Proofs/JsonP.v
theories/Proofs/LiveP.v
theories/Proofs/LiveReadP.v
theories/Proofs/LiveSkipP.v
theories/Proofs/LiveWaitP.v
theories/Proofs/LiveWriteP.v
theories/Proofs/LocationP.v
theories/Proofs/MapP.v
theories/Proofs/MediaP.v
theories/Proofs/MediaReadP.v
theories/Proofs/MessageP.v
theories/Proofs/NativeP.v
theories/Proofs/NetP.v
theories/Proofs/NetRestP.v
theories/Proofs/NetStepP.v
theories/Proofs/NetSysP.v
theories/Proofs/NetTopP.v
theories/Proofs/OriginP.v
theories/Proofs/OriginTop.v
theories/Proofs/PlayerP.v
theories/Proofs/PoolP.v
theories/Proofs/PublisherP.v
theories/Proofs/ReceiverP.v
theories/Proofs/RelayP.v
theories/Proofs/RelaySysP.v
theories/Proofs/RelayTop.v
theories/Proofs/RenderP.v
theories/Proofs/RoomP.v
theories/Proofs/ServeP.v
theories/Proofs/SessionP.v
theories/Proofs/SinkP.v
theories/Proofs/SpreadAllP.v
theories/Proofs/SpreadApartP.v
theories/Proofs/SpreadAskP.v
theories/Proofs/SpreadCalmP.v
theories/Proofs/SpreadChainP.v
theories/Proofs/SpreadFrameP.v
theories/Proofs/SpreadInvP.v
theories/Proofs/SpreadNetP.v
theories/Proofs/SpreadP.v
theories/Proofs/SpreadRecvP.v
theories/Proofs/SpreadRestP.v
theories/Proofs/SpreadRunP.v
theories/Proofs/SpreadShutP.v
theories/Proofs/SpreadStepP.v
theories/Proofs/SpreadTopP.v
theories/Proofs/SpreadTraceP.v
theories/Proofs/SpreadTurnP.v
theories/Proofs/StreamP.v
theories/Proofs/SubscriberP.v
theories/Proofs/TableP.v
theories/Proofs/TextP.v
theories/Proofs/TokenP.v
theories/Proofs/TrackP.v
theories/Proofs/TransferP.v
theories/Proofs/TransferTop.v
theories/Proofs/WebP.v
theories/Proofs/WebPublishP.v
theories/Properties/Accept.v
theories/Properties/Ask.v
theories/Properties/Audio.v
theories/Properties/Auth.v
theories/Properties/Broadcasts.v
theories/Properties/Catalog.v
theories/Properties/CatalogJson.v
theories/Properties/Clock.v
theories/Properties/Codec.v
theories/Properties/Discovery.v
theories/Properties/Element.v
theories/Properties/File.v
theories/Properties/Frames.v
theories/Properties/Groups.v
theories/Properties/GstSource.v
theories/Properties/Import.v
theories/Properties/ImportCodec.v
theories/Properties/JsAudio.v
theories/Properties/JsCapture.v
theories/Properties/JsCatalog.v
theories/Properties/JsChat.v
theories/Properties/JsConnect.v
theories/Properties/JsEmitter.v
theories/Properties/JsEncode.v
theories/Properties/JsHold.v
theories/Properties/JsMic.v
theories/Properties/JsPublish.v
theories/Properties/JsSignals.v
theories/Properties/JsTrack.v
theories/Properties/JsVideo.v
theories/Properties/JsWatch.v
theories/Properties/JsWire.v
theories/Properties/Live.v
theories/Properties/Location.v
theories/Properties/Media.v
theories/Properties/Native.v
theories/Properties/Net.v
theories/Properties/Origins.v
theories/Properties/Player.v
theories/Properties/Pool.v
theories/Properties/Publisher.v
theories/Properties/Receiver.v
theories/Properties/Relay.v
theories/Properties/Render.v
theories/Properties/Rest.v
theories/Properties/Room.v
theories/Properties/Sessions.v
theories/Properties/Sink.v
theories/Properties/Spread.v
theories/Properties/Streams.v
theories/Properties/Subscriber.v
theories/Properties/Token.v
theories/Properties/Tracks.v
theories/Properties/Web.v
theories/Properties/WebPublish.v
theories/Properties/Wire.v
